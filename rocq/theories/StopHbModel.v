(** Starting and stopping the threads of a pool, with a log of the synchronisation and of the plain accesses of their stop flags (done_ is a plain bool).
    Follows UThreadPool.cpp, UThreadPool.inl, UThreadBase.h, UThreadPrimary.h, UThreadSecondary.h.
    Simplified: a section under the mutex of a queue (C91) or of a thread is one step; a queue is any list, from whose ends any pool thread takes any number of tasks
    (which thread looks where: C40); tasks neither throw nor stop the pool they run on; the seq_cst accesses of cur_empty_epoch_ and is_running_ are left out
    (they order only what a pusher did before what the pool thread does next); so is the second reset by the destructors of thread objects after destroy has joined them
    (UThreadPool.cpp 161-163, 173). As protocol: only user thread 0 calls init and destroy, and nobody creates, releases or
    monitors secondary threads while destroy is working (it does not take the mutex of their list; C44 shows what goes wrong). *)
From Verif Require Import ListUtil StopHbSpec.
Import ListNotations.

(** What a pool thread is about to do. *)
Inductive wst :=
| WNone                       (* not started *)
| WNew                        (* std::thread constructed, UThreadPrimary.h init, UThreadSecondary.h init *)
| WLoop                       (* while (done_), UThreadBase.h 155-163 *)
| WSeek                       (* processTask, processTasks *)
| WWait                       (* fatWait, before an evaluation of [ready], UThreadPrimary.h 116-132; primary threads only. [ready] may answer before it reads the flag, here it always reads *)
| WHave (ks : list nat)       (* runTask, runTasks, UThreadBase.h 83-97 *)
| WBusy (k : nat) (ks : list nat)
| WEnded.

(** What a user thread is about to do. *)
Inductive upc :=
| UIdle
| UInit (todo : list nat) (m : nat)       (* init, UThreadPool.cpp 73-82: threads still to start; then [m] secondary threads *)
| UNeed (p : upc)                         (* waits for st_mutex_ *)
| UCreate (n : nat) (last : bool)         (* createSecondaryThread, UThreadPool.cpp 233-239; [last]: called by init *)
| USweep (n : nat) (todo : list nat)      (* releaseSecondaryThread, 190-193 *)
| UMark (n : nat) (todo : list nat)       (* 199-204 *)
| UMon (todo : list nat)                  (* monitor, 266-270; freeze reads the flag only if the time to live is over, here always *)
| UJoin (t : nat) (p : upc)               (* reset, UThreadBase.h 111-114: waits in join *)
| UDestroy (todo : list nat).             (* destroy, UThreadPool.cpp 148-175: primary, then secondary threads *)

Record pst := mkS {
  s_q : nat -> list nat;      (* the task queues; 0 is the pool's task_queue_ *)
  s_w : nat -> wst;
  s_f : nat -> bool;          (* done_ *)
  s_sec : nat -> bool;        (* is it a secondary thread (type_) *)
  s_u : nat -> upc;
  s_st : option nat;          (* who holds st_mutex_ *)
  s_prim : list nat;          (* primary_threads_ *)
  s_list : list nat;          (* secondary_threads_ *)
  s_next : nat;               (* the next thread object *)
  s_on : bool;                (* is_init_ of the pool *)
  s_log : slog }.

Definition s_init : pst := mkS (fun _ => []) (fun _ => WNone) (fun _ => false) (fun _ => false) (fun _ => UIdle) None [] [] 0 false [].

Definition act (a : who) (l : list sact) : slog := map (pair a) l.
Definition say (h : pst) (a : who) (l : list sact) : pst :=
  mkS (s_q h) (s_w h) (s_f h) (s_sec h) (s_u h) (s_st h) (s_prim h) (s_list h) (s_next h) (s_on h) (s_log h ++ act a l).
Definition set_q h q v := mkS (upd (s_q h) q v) (s_w h) (s_f h) (s_sec h) (s_u h) (s_st h) (s_prim h) (s_list h) (s_next h) (s_on h) (s_log h).
Definition set_w h t v := mkS (s_q h) (upd (s_w h) t v) (s_f h) (s_sec h) (s_u h) (s_st h) (s_prim h) (s_list h) (s_next h) (s_on h) (s_log h).
Definition set_f h t v := mkS (s_q h) (s_w h) (upd (s_f h) t v) (s_sec h) (s_u h) (s_st h) (s_prim h) (s_list h) (s_next h) (s_on h) (s_log h).
Definition set_u h u v := mkS (s_q h) (s_w h) (s_f h) (s_sec h) (upd (s_u h) u v) (s_st h) (s_prim h) (s_list h) (s_next h) (s_on h) (s_log h).
Definition set_st h v := mkS (s_q h) (s_w h) (s_f h) (s_sec h) (s_u h) v (s_prim h) (s_list h) (s_next h) (s_on h) (s_log h).
Definition set_lists h p l := mkS (s_q h) (s_w h) (s_f h) (s_sec h) (s_u h) (s_st h) p l (s_next h) (s_on h) (s_log h).
Definition set_on h b := mkS (s_q h) (s_w h) (s_f h) (s_sec h) (s_u h) (s_st h) (s_prim h) (s_list h) (s_next h) b (s_log h).
(** A new thread object: its constructor sets done_ (UThreadBase.h 24-32). *)
Definition birth h u sec := say (mkS (s_q h) (s_w h) (upd (s_f h) (s_next h) true) (upd (s_sec h) (s_next h) sec) (s_u h) (s_st h) (s_prim h) (s_list h) (S (s_next h)) (s_on h) (s_log h))
  (User u) [SNote (NSet (s_next h) AtBirth)].

(** The thread [t] is started by user [u] (thread_ = std::thread(...)). *)
Definition start h u t := say (set_w h t WNew) (User u) [SRel (LNew t)].
(** First half of reset (UThreadBase.h 104-109): under mutex_, done_ = false. *)
Definition stop h u t p := say (set_f h t false) (User u) [SAcq (LMtx t); SNote (NSet t p); SRel (LMtx t)].

(** The user thread is in destroy. *)
Definition destroying (p : upc) : bool := match p with UDestroy _ | UJoin _ (UDestroy _) => true | _ => false end.

Inductive slabel :=
| LCommit (a : who) (k q : nat)   (* commit, execute: push onto queue [q]; by a user thread, or by a pool thread inside of a task *)
| LTouch (a : who) (t : nat)      (* pushTask, UThreadPrimary.h 143-146: takes the mutex of thread [t]; also wakeups *)
| LSay (u v : nat)                (* user thread [u] tells [v], by means of the program *)
| LInit (n m : nat)               (* user thread 0 calls init with [n] primary and [m] secondary threads *)
| LDestroy                        (* user thread 0 calls destroy *)
| LCreate (u n : nat)             (* createSecondaryThread(n); also commitWithPriority, monitor *)
| LRelease (u n : nat)            (* releaseSecondaryThread(n) *)
| LMonitor (u : nat)              (* the monitor looks for threads to give up *)
| LUser (u : nat) (b : bool)      (* next step of user thread [u]; [b]: what freeze finds *)
| LWork (t : nat)                 (* next step of pool thread [t] *)
| LTake (t q n : nat) (back : bool)   (* takes up to [n] tasks of queue [q], from the front or (stealing) the back *)
| LMiss (t : nat)                 (* found nothing: yields or times out *)
| LSleep (t : nat)                (* found nothing often enough: fatWait takes the mutex *)
| LReady (t : nat) (asked awake : bool).   (* evaluates [ready]; [asked]: the pool queue was asked; [awake]: found something, or the time limit *)

Definition may_commit (h : pst) (a : who) : bool :=
  match a with User u => match s_u h u with UIdle => true | _ => false end | Pool t => match s_w h t with WBusy _ _ => true | _ => false end end.

(** createSecondaryThread: one more secondary thread (UThreadPool.cpp 235-238). *)
Definition spawn h u := let t := s_next h in let h1 := birth h u true in start (set_lists h1 (s_prim h1) (s_list h1 ++ [t])) u t.

Fixpoint births (h : pst) (n : nat) : pst :=
  match n with 0 => h | S r => let t := s_next h in let h1 := birth h 0 false in births (set_lists h1 (s_prim h1 ++ [t]) (s_list h1)) r end.

Definition unlock_st h u := say (set_st h None) (User u) [SRel LList].

Definition user_step (h : pst) (u : nat) (b : bool) : option pst :=
  match s_u h u with
  | UIdle => None
  | UInit (t :: r) m => Some (set_u (start h u t) u (UInit r m))
  | UInit [] m => Some (set_u h u (UNeed (UCreate m true)))
  | UNeed p =>
      match s_st h with
      | None => if destroying (s_u h 0) then None else
          let p' := match p with USweep n _ => USweep n (s_list h) | UMon _ => UMon (s_list h) | _ => p end in
          Some (set_u (say (set_st h (Some u)) (User u) [SAcq LList]) u p')
      | Some _ => None
      end
  | UCreate 0 last => let h1 := unlock_st (set_u h u UIdle) u in Some (if last then set_on h1 true else h1)
  | UCreate (S n) last => Some (set_u (spawn h u) u (UCreate n last))
  | USweep n (t :: r) =>
      let h1 := say h (User u) [SNote (NGet t InList)] in
      if s_f h t then Some (set_u h1 u (USweep n r)) else Some (set_u (stop h1 u t AtErase) u (UJoin t (USweep n r)))
  | USweep n [] => if Nat.ltb (length (s_list h)) n then Some (unlock_st (set_u h u UIdle) u) else Some (set_u h u (UMark n (s_list h)))
  | UMark (S n) (t :: r) => Some (set_u (say (set_f h t false) (User u) [SNote (NSet t InList)]) u (UMark n r))
  | UMark _ _ => Some (unlock_st (set_u h u UIdle) u)
  | UMon (t :: r) =>
      let h1 := say h (User u) [SNote (NGet t InList)] in
      if s_f h t && b then Some (set_u (stop h1 u t AtErase) u (UJoin t (UMon r))) else Some (set_u h1 u (UMon r))
  | UMon [] => Some (unlock_st (set_u h u UIdle) u)
  | UJoin t p =>
      match s_w h t with
      | WEnded => let h1 := say h (User u) [SAcq (LEnd t); SNote (NJoined t)] in
          Some (set_u (if destroying p then h1 else set_lists h1 (s_prim h1) (remove Nat.eq_dec t (s_list h1))) u p)
      | _ => None
      end
  | UDestroy (t :: r) => Some (set_u (stop h u t InDestroy) u (UJoin t (UDestroy r)))
  | UDestroy [] => Some (set_u (say (set_on (set_lists h [] []) false) (User u) [SNote NDestroyed]) u UIdle)
  end.

Definition idle (h : pst) (u : nat) : bool := match s_u h u with UIdle => true | _ => false end.

Definition stop_step (h : pst) (l : slabel) : option pst :=
  match l with
  | LCommit a k q => if may_commit h a then Some (set_q (say h a [SNote (NCommit k); SAcq (LQueue q); SRel (LQueue q)]) q (s_q h q ++ [k])) else None
  | LTouch a t => if may_commit h a then Some (say h a [SAcq (LMtx t); SRel (LMtx t)]) else None
  | LSay u v => if idle h u && idle h v then Some (say (say h (User u) [SRel (LTell u)]) (User v) [SAcq (LTell u)]) else None
  | LInit n m => if idle h 0 && negb (s_on h) && match s_prim h with [] => true | _ => false end
      then let h1 := births h n in Some (set_u h1 0 (UInit (s_prim h1) m)) else None
  | LDestroy => if idle h 0 && s_on h && match s_st h with None => true | _ => false end
      then Some (set_u h 0 (UDestroy (s_prim h ++ s_list h))) else None
  | LCreate u n => if idle h u then Some (set_u h u (UNeed (UCreate n false))) else None
  | LRelease u n => if idle h u then Some (set_u h u (UNeed (USweep n []))) else None
  | LMonitor u => if idle h u then Some (set_u h u (UNeed (UMon []))) else None
  | LUser u b => user_step h u b
  | LWork t =>
      match s_w h t with
      | WNew => Some (say (set_w h t WLoop) (Pool t) [SAcq (LNew t)])
      | WLoop => if s_f h t then Some (say (set_w h t WSeek) (Pool t) [SNote (NGet t InLoop)])
          else Some (say (set_w h t WEnded) (Pool t) [SNote (NGet t InLoop); SRel (LEnd t)])
      | WHave [] => Some (set_w h t WLoop)
      | WHave (k :: r) => Some (say (set_w h t (WBusy k r)) (Pool t) [SNote (NBegin k)])
      | WBusy k r => Some (say (set_w h t (WHave r)) (Pool t) [SNote (NEnd k)])
      | _ => None
      end
  | LTake t q n back =>
      match s_w h t with
      | WSeek => let l := s_q h q in
          let got := if back then rev (skipn (length l - n) l) else firstn n l in
          let left := if back then firstn (length l - n) l else skipn n l in
          Some (say (set_q (set_w h t (WHave got)) q left) (Pool t) [SAcq (LQueue q); SRel (LQueue q)])
      | _ => None
      end
  | LMiss t => match s_w h t with WSeek => Some (set_w h t WLoop) | _ => None end
  | LSleep t => match s_w h t with WSeek => if s_sec h t then None else Some (set_w h t WWait) | _ => None end
  | LReady t asked awake =>
      match s_w h t with
      | WWait => Some (say (set_w h t (if awake || negb (s_f h t) then WLoop else WWait)) (Pool t)
          (SAcq (LMtx t) :: (if asked then [SAcq (LQueue 0); SRel (LQueue 0)] else []) ++ [SNote (NGet t InWait); SRel (LMtx t)]))
      | _ => None
      end
  end.

Inductive stop_run : list slabel -> pst -> Prop :=
| sr_nil : stop_run [] s_init
| sr_step ls l h h' : stop_run ls h -> stop_step h l = Some h' -> stop_run (ls ++ [l]) h'.
