(** A pool that watches itself: the monitor thread next to init, destroy and deletion by one user thread,
    src/UtilsCtrl/ThreadPool/UThreadPool.cpp 23-30 (deletion), 33-39 (setConfig), 47-89 (init), 141-178 (destroy), 245-277 (monitor).
    Simplified: only what the monitor shares with the others is kept: monitor_enable_, is_init_, the vector of the primary threads
    and whether the objects it points to exist. Whether a primary thread is running is an input; the creation and the sweep of
    secondary threads are CoordModel and StopHbModel. init does not fail, and the number [n] of primary threads and the span are
    those of the configuration: setConfig changes only whether the pool is watched. One thread uses the pool, and no longer after it was deleted. *)
From Verif Require Export WatchSpec.
Local Open Scope nat_scope.
Local Open Scope list_scope.

(** Where the user thread is. [del]: inside the deletion of the pool. *)
Inductive upc := UIdle | I1 | I2 | I3 (k : nat) | I4 | D1 (del : bool) | D2 (i : nat) (del : bool) | D3 (del : bool) | D4 (del : bool) | X1 | X2 | Gone.
(** Where the monitor is: at the tests of 246, 247 (two), 253 (two), 258, at entry [i] of [n], with pointer [p], in the rest, ended. *)
Inductive mpc := W0 | W1 | W1b | W2 (k : nat) | W2b (k : nat) | W3 | W4 (i n : nat) | W5 (i n p : nat) | W6 | WEnd.
(** The members of UThreadPool that matter here, which threads exist, and where the two threads are. *)
Record wst := mkW
  { w_en : bool; w_init : bool;
    w_vec : list (option nat);        (* primary_threads_; None: null *)
    w_alive : nat -> bool; w_fresh : nat;
    w_user : upc;
    w_mon : option mpc;               (* None: monitor_thread_ is not joinable *)
    w_log : wlog }.
(** A new pool: UThreadPool.h 203-210 (initial values of the members). *)
Definition w_new (en : bool) : wst := mkW en false [] (fun _ => false) 0 UIdle None [].
(** What happens next: the user calls init (47), setConfig (33), destroy (141) or deletes the pool (23), goes on with its call, or the monitor goes on (245-277); [running]: what it finds is_running_ of a thread to be. *)
Inductive wlab := LInit | LConfig (en : bool) | LDestroy | LDelete | LUser | LMon (running : bool).
(** How a step or a run ends. *)
Inductive wout := WRun (s : wst) | WCrash (* std::terminate *) | WUndef (* use of a deleted or missing thread *) | WStuck.
(** Bookkeeping for the steps below: a step of the user or of the monitor with what it logs, changes of single members. *)
Definition user (s : wst) (p : upc) (es : list wact) : wst := mkW (w_en s) (w_init s) (w_vec s) (w_alive s) (w_fresh s) p (w_mon s) (w_log s ++ map (pair User) es).
Definition mon (s : wst) (p : mpc) (es : list wact) : wst := mkW (w_en s) (w_init s) (w_vec s) (w_alive s) (w_fresh s) (w_user s) (Some p) (w_log s ++ map (pair Monitor) es).
Definition set_mon (s : wst) (p : option mpc) : wst := mkW (w_en s) (w_init s) (w_vec s) (w_alive s) (w_fresh s) (w_user s) p (w_log s).
Definition set_flags (s : wst) (en ini : bool) : wst := mkW en ini (w_vec s) (w_alive s) (w_fresh s) (w_user s) (w_mon s) (w_log s).
Definition set_vec (s : wst) (v : list (option nat)) (al : nat -> bool) (fr : nat) : wst := mkW (w_en s) (w_init s) v al fr (w_user s) (w_mon s) (w_log s).
(** CGRAPH_DELETE_PTR on entry [i] of primary_threads_ (UThreadPool.cpp 161-163) leaves a null pointer. *)
Fixpoint null_at (i : nat) (l : list (option nat)) : list (option nat) :=
  match i, l with _, [] => [] | O, _ :: r => None :: r | S i, x :: r => x :: null_at i r end.
Section C.
Variables (size span : nat).
(** The end of destroy, called by the user or by the deletion. *)
Definition leave (s : wst) (del : bool) (es : list wact) : wst := user s (if del then Gone else UIdle) es.
(** One step; the comments give the lines of UThreadPool.cpp. *)
Definition wstep (s : wst) (l : wlab) : wout :=
  match l with
  | LInit => match w_user s with UIdle => WRun (user s I1 []) | _ => WStuck end
  | LConfig en => (* 35-37 *)
      match w_user s with
      | UIdle => WRun (if w_init s then user s UIdle [WNote FInit false] else user (set_flags s en (w_init s)) UIdle [WNote FInit false; WNote FEnable true])
      | _ => WStuck
      end
  | LDestroy => match w_user s with UIdle => WRun (user s (D1 false) []) | _ => WStuck end
  | LDelete => match w_user s with UIdle => WRun (user s X1 []) | _ => WStuck end
  | LUser =>
      match w_user s with
      | UIdle | Gone => WStuck
      | I1 => (* 49 *) WRun (user s (if w_init s then UIdle else I2) [WNote FInit false])
      | I2 =>
          (* 53-56: a new std::thread is moved into monitor_thread_, which must not be joinable *)
          if w_en s then match w_mon s with
                         | Some _ => WCrash
                         | None => WRun (user (set_mon s (Some W0)) (I3 0) [WNote FEnable false; WRel true])
                         end
          else WRun (user s (I3 0) [WNote FEnable false])
      | I3 k =>
          (* 61-66 *)
          if k <? size then WRun (user (set_vec s (w_vec s ++ [Some (w_fresh s)]) (upd (w_alive s) (w_fresh s) true) (S (w_fresh s))) (I3 (S k)) [])
          else WRun (user s I4 [])
      | I4 => (* 87 *) WRun (user (set_flags s (w_en s) true) UIdle [WNote FInit true])
      | D1 del => (* 143-145 *) WRun (if w_init s then user s (D2 0 del) [WNote FInit false] else leave s del [WNote FInit false])
      | D2 i del =>
          (* 161-163: CGRAPH_DELETE_PTR *)
          match nth_error (w_vec s) i with
          | Some (Some p) => WRun (user (set_vec s (null_at i (w_vec s)) (upd (w_alive s) p false) (w_fresh s)) (D2 (S i) del) [])
          | Some None => WRun (user s (D2 (S i) del) [])
          | None => WRun (user s (D3 del) [])
          end
      | D3 del => (* 164 *) WRun (user (set_vec s [] (w_alive s) (w_fresh s)) (D4 del) [])
      | D4 del => (* 175 *) WRun (leave (set_flags s (w_en s) false) del [WNote FInit true])
      | X1 => (* 24 *) WRun (user (set_flags s false (w_init s)) X2 [WNote FEnable true])
      | X2 =>
          (* 25-29 *)
          match w_mon s with
          | None => WRun (user s (D1 true) [])
          | Some WEnd => WRun (user (set_mon s None) (D1 true) [WAcq false])
          | Some _ => WStuck
          end
      end
  | LMon b =>
      match w_mon s with
      | None | Some WEnd => WStuck
      | Some W0 => WRun (if w_en s then mon s W1 [WAcq true; WNote FEnable false] else mon s WEnd [WAcq true; WNote FEnable false; WRel false])
      | Some W1 => WRun (mon s (if w_en s then W1b else W2 span) [WNote FEnable false])
      | Some W1b => WRun (mon s (if w_init s then W2 span else W1) [WNote FInit false])
      | Some (W2 k) => WRun (mon s (if w_en s then W2b k else W3) [WNote FEnable false])
      | Some (W2b k) => WRun (mon s (if w_init s then match k with O => W3 | S k => W2 k end else W3) [WNote FInit false])
      | Some W3 => WRun (mon s (W4 0 (length (w_vec s))) [])
      | Some (W4 i n) =>
          if i <? n then match nth_error (w_vec s) i with
                         | None => WUndef
                         | Some None => WRun (mon s W6 [])
                         | Some (Some p) => WRun (mon s (W5 i n p) [])
                         end
          else WRun (mon s W6 [])
      | Some (W5 i n p) => if w_alive s p then WRun (mon s (if b then W4 (S i) n else W6) []) else WUndef
      | Some W6 => WRun (mon s W0 [])
      end
  end.
Fixpoint wrun (s : wst) (ls : list wlab) : wout :=
  match ls with [] => WRun s | l :: r => match wstep s l with WRun s' => wrun s' r | x => x end end.
End C.
