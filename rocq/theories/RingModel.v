(** The message ring buffer, src/UtilsCtrl/ThreadPool/Queue/UAtomicRingBufferQueue.h. Messages are nats; a cell holds a
    message or a null pointer. *)
From Verif Require Export ListUtil.
From Coq Require Import Lia.
Local Open Scope nat_scope.
Local Open Scope list_scope.

Record rb := mkRB { rb_cap : nat; rb_head : nat; rb_tail : nat; rb_cells : list (option nat) }.
(** Constructor and setCapacity before any use, UAtomicRingBufferQueue.h 24-29, 41-45 (GMessage.h 23-27). *)
Definition rb_new (c : nat) : rb := mkRB c 0 0 (repeat None c).
(** isFull, UAtomicRingBufferQueue.h 128-131; [None]: remainder by zero. *)
Definition rb_full (s : rb) : option bool := match rb_cap s with O => None | S _ => Some (Nat.eqb (rb_head s) ((rb_tail s + 1) mod rb_cap s)) end.
(** isEmpty, UAtomicRingBufferQueue.h 137-139 *)
Definition rb_empty (s : rb) : bool := Nat.eqb (rb_head s) (rb_tail s).
Fixpoint set_nth {A} (i : nat) (x : A) (l : list A) : option (list A) :=
  match l, i with
  | [], _ => None
  | _ :: r, O => Some (x :: r)
  | y :: r, S j => match set_nth j x r with Some r' => Some (y :: r') | None => None end
  end.
(** The end of push, UAtomicRingBufferQueue.h 79-80; [None]: index outside the vector. *)
Definition rb_store (v : nat) (s : rb) : option rb :=
  match set_nth (rb_tail s) (Some v) (rb_cells s) with
  | Some l => Some (mkRB (rb_cap s) (rb_head s) ((rb_tail s + 1) mod rb_cap s) l)
  | None => None
  end.
(** REPLACE, UAtomicRingBufferQueue.h 71-73 *)
Definition rb_skip (s : rb) : rb := mkRB (rb_cap s) ((rb_head s + 1) mod rb_cap s) (rb_tail s) (rb_cells s).
(** The end of waitPopWithTimeout, UAtomicRingBufferQueue.h 104-105: the cell is moved from. The result is a null pointer if the cell held none. *)
Definition rb_take (s : rb) : option (rb * option nat) :=
  match nth_error (rb_cells s) (rb_head s), set_nth (rb_head s) None (rb_cells s) with
  | Some x, Some l => Some (mkRB (rb_cap s) ((rb_head s + 1) mod rb_cap s) (rb_tail s) l, x)
  | _, _ => None
  end.
Inductive strategy := SWait | SReplace | SDrop.
Inductive presult := PStored | PDropped | PBlocked.
(** push called while no other thread acts, UAtomicRingBufferQueue.h 63-83. [PBlocked]: the call waits. *)
Definition rb_push (v : nat) (g : strategy) (s : rb) : option (rb * presult) :=
  match rb_full s with
  | None => None
  | Some false => match rb_store v s with Some s' => Some (s', PStored) | None => None end
  | Some true =>
      match g with
      | SWait => Some (s, PBlocked)
      | SReplace => match rb_store v (rb_skip s) with Some s' => Some (s', PStored) | None => None end
      | SDrop => Some (s, PDropped)
      end
  end.
(** waitPopWithTimeout called while no other thread acts, UAtomicRingBufferQueue.h 93-109. [None] as the answer: the timeout error. *)
Definition rb_pop (s : rb) : option (rb * option (option nat)) :=
  if rb_empty s then Some (s, None)
  else match rb_take s with Some (s', x) => Some (s', Some x) | None => None end.

(** * Concurrent use by [n] threads. Every critical section is one step (it holds mutex_); a wait releases the mutex and
    sleeps on the condition variable until notified (or spuriously), then competes for the mutex again. The notify_one calls
    are outside the critical section, so they are steps of their own. *)
Inductive tstate :=
| TIdle
| TPushSleep (v : nat)       (* in push_cv_.wait, 69 *)
| TPushWoken (v : nat)       (* woken, mutex not yet held *)
| TPushSig                   (* after the critical section of push, before pop_cv_.notify_one, 82 *)
| TPopSleep                  (* in pop_cv_.wait_for, 98 *)
| TPopWoken
| TPopSig (v : option nat).  (* before push_cv_.notify_one, 107 *)
(** What happened so far: messages stored, messages leaving (true: returned by a pop, false: overwritten by REPLACE). *)
Record cst := mkC { c_rb : rb; c_th : nat -> tstate; c_ins : list nat; c_outs : list (bool * option nat) }.
Definition c_new (cap : nat) : cst := mkC (rb_new cap) (fun _ => TIdle) [] [].
Inductive clabel :=
| CPush (t v : nat) (g : strategy)     (* a thread calls push *)
| CPop (t : nat)                       (* a thread calls waitPopWithTimeout *)
| CResume (t : nat)                    (* a woken thread gets the mutex and tests the condition *)
| CSpurious (t : nat)                  (* a sleeping thread wakes up without a notification *)
| CTimeout (t : nat)                   (* the deadline of a waiting pop is reached; it gets the mutex and tests once more *)
| CNotify (t : nat) (w : option nat).  (* notify_one: wakes w, or nobody when nobody sleeps *)
Definition c_set (t : nat) (x : tstate) (s : cst) : cst := mkC (c_rb s) (upd (c_th s) t x) (c_ins s) (c_outs s).
(** Store a message and go on to notify. *)
Definition c_store (t v : nat) (s : cst) : option cst :=
  match rb_store v (c_rb s) with Some b => Some (mkC b (upd (c_th s) t TPushSig) (c_ins s ++ [v]) (c_outs s)) | None => None end.
Definition c_take (t : nat) (s : cst) : option cst :=
  match rb_take (c_rb s) with Some (b, x) => Some (mkC b (upd (c_th s) t (TPopSig x)) (c_ins s) (c_outs s ++ [(true, x)])) | None => None end.
Definition is_pop_sleep (x : tstate) : bool := match x with TPopSleep => true | _ => false end.
Definition is_push_sleep (x : tstate) : bool := match x with TPushSleep _ => true | _ => false end.
Definition c_step (n : nat) (s : cst) (l : clabel) : option cst :=
  let ids := seq 0 n in
  match l with
  | CPush t v g =>
      if negb (t <? n) then None else
      match c_th s t, rb_full (c_rb s) with
      | TIdle, Some false => c_store t v s
      | TIdle, Some true =>
          match g with
          | SWait => Some (c_set t (TPushSleep v) s)
          | SReplace =>
              (* the oldest message is given up *)
              match nth_error (rb_cells (c_rb s)) (rb_head (c_rb s)) with
              | Some x => c_store t v (mkC (rb_skip (c_rb s)) (c_th s) (c_ins s) (c_outs s ++ [(false, x)]))
              | None => None
              end
          | SDrop => Some s
          end
      | _, _ => None
      end
  | CPop t =>
      if negb (t <? n) then None else
      match c_th s t with
      | TIdle => if rb_empty (c_rb s) then Some (c_set t TPopSleep s) else c_take t s
      | _ => None
      end
  | CResume t =>
      match c_th s t with
      | TPushWoken v => match rb_full (c_rb s) with Some true => Some (c_set t (TPushSleep v) s) | Some false => c_store t v s | None => None end
      | TPopWoken => if rb_empty (c_rb s) then Some (c_set t TPopSleep s) else c_take t s
      | _ => None
      end
  | CSpurious t =>
      match c_th s t with
      | TPushSleep v => Some (c_set t (TPushWoken v) s)
      | TPopSleep => Some (c_set t TPopWoken s)
      | _ => None
      end
  | CTimeout t =>
      match c_th s t with
      | TPopSleep | TPopWoken => if rb_empty (c_rb s) then Some (c_set t TIdle s) else c_take t s
      | _ => None
      end
  | CNotify t w =>
      match c_th s t with
      | TPushSig =>
          match w with
          | Some u => match c_th s u with TPopSleep => Some (c_set u TPopWoken (c_set t TIdle s)) | _ => None end
          | None => if existsb (fun u => is_pop_sleep (c_th s u)) ids then None else Some (c_set t TIdle s)
          end
      | TPopSig _ =>
          match w with
          | Some u => match c_th s u with TPushSleep v => Some (c_set u (TPushWoken v) (c_set t TIdle s)) | _ => None end
          | None => if existsb (fun u => is_push_sleep (c_th s u)) ids then None else Some (c_set t TIdle s)
          end
      | _ => None
      end
  end.
Fixpoint c_run (n : nat) (s : cst) (ls : list clabel) : option cst :=
  match ls with [] => Some s | l :: r => match c_step n s l with Some s' => c_run n s' r | None => None end end.
