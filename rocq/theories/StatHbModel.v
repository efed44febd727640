(** The static engine with a log of its synchronisation: the same steps as StaticModel (GStaticEngine.cpp 46-77), and beside them what every step does to memory. A task goes through a queue
    whose push and pop hold the same mutex (UAtomicQueue.h, UWorkStealingQueue.h): logged as one release at the push and one acquire at the pop. The task is a std::packaged_task
    (UThreadPool::commit, UThreadPool.inl 16-26): storing its result releases the state shared with the future, future.get() (GStaticEngine.cpp 70-72) acquires it. The sum of the statuses is a local variable of
    the caller. The caller is thread 0; the task of element [e] is thread [S e] (every element is committed at most once in a run). Simplified: the other locks of the pool, and the
    order between two tasks run by one worker, are left out; leaving out can only take order away. *)
From Verif Require Import GraphModel StaticModel HbSpec.
Local Open Scope nat_scope.

(** The task pushed, or the result taken, by the next action of the caller; a macro runs on the caller (GStaticEngine.cpp 66-68); returning or throwing (73, 76) is logged with the sum of the statuses. *)
Definition caller_mem (s : sst) (r : status) : list hact :=
  match s_main s with
  | [] => [HNote (NRet (s_stat s))]
  | ACommit e :: _ => [HStore (HTask e)]
  | AMacroStart e :: _ => [HNote (NStart e)]
  | AMacroFinish e :: _ => [HNote (NFinish e r)]
  | AGet e :: _ => [HLoad (HFut e)]
  | ACheck :: _ => match check_status (s_stat s) with Continue => [] | _ => [HNote (NRet (s_stat s))] end
  end.
(** GStaticEngine.cpp 59-62: what a worker does with the task of an element. *)
Definition stat_mem (s : sst) (l : slabel) : hlog :=
  match l with
  | SMain r => map (fun a => (0, a)) (caller_mem s r)
  | SStart e => [(S e, HLoad (HTask e)); (S e, HNote (NStart e))]
  | SFinish e r => [(S e, HNote (NFinish e r)); (S e, HStore (HFut e))]
  end.
Definition shstep (h : sst * hlog) (l : slabel) : option (sst * hlog) :=
  match sstep (fst h) l with Some s' => Some (s', snd h ++ stat_mem (fst h) l) | None => None end.
Fixpoint shrun (h : sst * hlog) (ls : list slabel) : option (sst * hlog) :=
  match ls with [] => Some h | l :: r => match shstep h l with Some h' => shrun h' r | None => None end end.
(** GStaticEngine::run 46-48 is called. *)
Definition sh_init (inl : nat -> bool) (mat : list (list nat)) : sst * hlog := (s_init inl mat, [(0, HNote NCall)]).
