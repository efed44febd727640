(** The waiting for events at the end of GPipeline::run, on a pool with finitely many threads, while elements are still running: those that an error in the engine leaves behind, and those that were given up after a
    timeout with the strategy AS_ERROR or NO_HOLD (GElement.cpp 535-554; GElementRepository::reset, GElementRepository.cpp 44-59, waits for HOLD_BY_PIPELINE only). Such elements may go on to notify events.
    [W]: the number of threads of the pool (the monitor that adds threads is off by default, UThreadPoolDefine.h 61). Which waiting task a thread takes is left open.
    Simplified: notifications by threads outside the pool (daemons) after the engine returned are left out: they occupy no thread of the pool. Futures kept for destroy have a lock of their own, free during run,
    and are left out (GEvent.cpp 76-78). EventModel has the other phases and no limit on threads. *)
From Verif Require Import EventModel.
Local Open Scope list_scope.

(** A task of the pool. [KRun r h]: the user code still has to make the notifications [r]; [h]: it has committed a task of event [fst h] and is about to store its future, GEvent.cpp 74-75. *)
Inductive ntask := KNone | KQueued (r : list (nat * strat)) | KRun (r : list (nat * strat)) (h : option (nat * nat)) | KDone.
(** The thread inside run: the elements, then GEventManager::reset (GPipeline.cpp 71-73, GEventManager.cpp 83-89) with GEvent::asyncWait for one event after the other (GEvent.cpp 84-93: the lock of the event is
    held and one future after the other is waited for), then the return. *)
Inductive nphase := NElems | NWait (todo : list nat) (cur : option (nat * list nat)) | NRet.
(** [n_rf]: async_run_finish_futures_ of each event, GEvent.h *)
Record nst := mkN { n_ph : nphase; n_next : nat; n_task : nat -> ntask; n_rf : nat -> list nat }.
Definition n_new : nst := mkN NElems 0 (fun _ => KNone) (fun _ => []).
Definition is_rf (g : strat) : bool := match g with RunFinish => true | _ => false end.
Definition is_run (x : ntask) : bool := match x with KRun _ _ => true | _ => false end.
(** the threads of the pool that execute a task *)
Definition busy (s : nst) : nat := length (filter (fun t => is_run (n_task s t)) (seq 0 (n_next s))).
(** async_run_finished_lock_ of event [k] is held: GEvent.cpp 87 *)
Definition held (s : nst) (k : nat) : bool := match n_ph s with NWait _ (Some (k', _)) => Nat.eqb k' k | _ => false end.
Definition n_with (s : nst) (ph : nphase) := mkN ph (n_next s) (n_task s) (n_rf s).
Definition n_set (s : nst) (t : nat) (x : ntask) := mkN (n_ph s) (n_next s) (upd (n_task s) t x) (n_rf s).
(** a task is committed to the pool: GEvent.cpp 66-68 (a trigger: GEvent offers no notify), GElement.cpp 539-541 and GDynamicEngine.cpp 124-136 (an element) *)
Definition n_commit (s : nst) (r : list (nat * strat)) := mkN (n_ph s) (S (n_next s)) (upd (n_task s) (n_next s) (KQueued r)) (n_rf s).
Definition n_store (s : nst) (k t : nat) := mkN (n_ph s) (n_next s) (n_task s) (upd (n_rf s) k (n_rf s k ++ [t])).

Inductive nlabel :=
| NCall (k : nat) (g : strat)               (* an element notifies, and the engine waits for this element *)
| NLeft (r : list (nat * strat))            (* an element is put into the pool, and the engine will not wait for it; it is to make the notifications [r] *)
| NEnd                                      (* the engine returns, with an error or without *)
| NMain                                     (* the thread inside run goes on *)
| NStart (t : nat) | NCommit (t : nat) | NStore (t : nat) | NFinish (t : nat).
Section Step.
Variables (keys : list nat) (W : nat).
Definition nstep (s : nst) (l : nlabel) : option nst :=
  match l with
  | NCall k g => (* GEventManager::trigger, GEventManager.cpp 45-55: an unknown event is an error. The call returns before the engine does, and nothing reads the list before, so commit and store are one step *)
      match n_ph s with
      | NElems => if memb k keys then let s1 := n_commit s [] in Some (if is_rf g then n_store s1 k (n_next s) else s1) else Some s
      | _ => None
      end
  | NLeft r => match n_ph s with NElems => Some (n_commit s r) | _ => None end
  | NEnd => match n_ph s with NElems => Some (n_with s (NWait keys None)) | _ => None end
  | NMain =>
      match n_ph s with
      | NWait [] None => Some (n_with s NRet)
      | NWait (k :: r) None => Some (n_with s (NWait r (Some (k, n_rf s k))))
      | NWait r (Some (k, t :: w)) => match n_task s t with KDone => Some (n_with s (NWait r (Some (k, w)))) | _ => None end
      | NWait r (Some (k, [])) => Some (mkN (NWait r None) (n_next s) (n_task s) (upd (n_rf s) k []))     (* GEvent.cpp 91: clear *)
      | _ => None
      end
  | NStart t => match n_task s t with KQueued r => if busy s <? W then Some (n_set s t (KRun r None)) else None | _ => None end
  | NCommit t =>
      match n_task s t with
      | KRun ((k, g) :: r) None =>
          if memb k keys then Some (n_set (n_commit s []) t (KRun r (if is_rf g then Some (k, n_next s) else None))) else Some (n_set s t (KRun r None))
      | _ => None
      end
  | NStore t => match n_task s t with KRun r (Some (k, n)) => if held s k then None else Some (n_set (n_store s k n) t (KRun r None)) | _ => None end
  | NFinish t => match n_task s t with KRun [] None => Some (n_set s t KDone) | _ => None end
  end.
Fixpoint nrun (s : nst) (ls : list nlabel) : option nst := match ls with [] => Some s | l :: r => match nstep s l with Some s' => nrun s' r | None => None end end.
End Step.
