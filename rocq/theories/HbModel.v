(** The dynamic engine with a log of its synchronisation: the same steps as DynModel (GDynamicEngine.cpp, common path), and beside them which atomic operations, locks and plain
    accesses every step performs. The memory orders are those in the source: left_depend_ is stored with release (GElement::refresh, GElement.cpp 25-28) and decremented with the
    default order (GDynamicEngine.cpp 166), finished_end_size_ is stored with release, incremented with acquire and release, read with acquire (57, 188, 211, 224); cur_status_ is a plain object
    (GDynamicEngine.h 111), written under status_lock_ (146-149) and read without it. A task goes through a queue whose push and pop hold the same mutex (UAtomicQueue.h, UWorkStealingQueue.h):
    logged as one release at the push and one acquire at the pop. Simplified: the other locks of the pool, and the order between two tasks run by one worker, are left out; leaving out can
    only take order away. *)
From Verif Require Import GraphModel DynModel HbSpec.
Local Open Scope nat_scope.

Record hst := mkH {
  h_s : dst;
  h_log : hlog;            (* since the last call of run *)
  h_tasks : list nat;      (* the numbers of the waiting tasks, beside d_pool *)
  h_thr : list nat;        (* the numbers of the tasks the busy workers execute, beside d_act; the caller is thread 0 *)
  h_next : nat             (* number of the next task *)
}.
Definition h_init (c : dcfg) : hst := mkH (d_init c) [] [] [] 1.

(** What one action of DynModel's [op_sem] does to memory; [k] is the number of the task it may create.
    process 124-137 reads cur_status_; innerExec 140-150 refreshes the counter, runs the element and, on an error, writes cur_status_ under status_lock_;
    afterElementRun 155-192 reads cur_status_, decrements the counters, increments finished_end_size_, takes mtx_. *)
Definition op_mem (o : op) (r : status) (k : nat) : list hact :=
  match o with
  | OProc _ _ => [HNote NRead]
  | OEnq _ => [HStore (HTask k)]
  | OExec e => [HStore (HLeft e); HNote (NStart e)]
  | OBody e => [HNote (NFinish e r)]
  | OErr _ _ => [HLock HStat; HNote NRead; HNote NWrite; HUnlock HStat]
  | ONotify => []
  | OAfter _ => [HNote NRead]
  | ODecs _ [] _ => []
  | ODecs _ (x :: _) _ => [HRmw (HLeft x)]
  | OTail _ => [HRmw HFin]
  | OLockNotify => [HLock HMtx; HUnlock HMtx]
  end.

(** The same for the steps of the calling thread that are not operations on elements: prepareRun 307-315, commonRunAll 57, fatWait 207-225, run 47. *)
Definition main_mem (c : dcfg) (s : dst) : list hact :=
  match d_main s with
  | MPrep => if isOK (sh_stat (d_sh s)) then [HNote NRead]
             else HNote NRead :: map (fun e => HStore (HLeft e)) (els (c_g c)) ++ [HNote NWrite]
  | MStore => [HStore HFin]
  | MPoll (S _) => [HLoad HFin]
  | MLock => [HLock HMtx]
  | MEvalFin => if Nat.leb (total_end c) (sh_fin (d_sh s)) then [HLoad HFin; HUnlock HMtx] else [HLoad HFin]
  | MEvalErr => if isErr (sh_stat (d_sh s)) then [HNote NRead; HUnlock HMtx] else [HNote NRead]
  | MPreSleep => [HUnlock HMtx]
  | MRet => [HNote NRead; HNote (NRet (sh_stat (d_sh s)))]
  | _ => []
  end.

Definition by_ (t : nat) (l : list hact) : hlog := map (fun a => (t, a)) l.

(** Numbers for the tasks a step has added to the queue. *)
Definition fresh_tasks (k : nat) (old new : list nat) : list nat := seq k (length new - length old).

Definition hstep (c : dcfg) (h : hst) (lb : dlabel) : option hst :=
  let s := h_s h in
  match dstep c s lb with
  | None => None
  | Some s' =>
      match lb with
      | LRun => Some (mkH s' [(0, HNote NCall)] (h_tasks h) (h_thr h) (h_next h))
      | LSpurious => Some (mkH s' (h_log h) (h_tasks h) (h_thr h) (h_next h))
      | LPick i =>
          match nth_error (h_tasks h) i with
          | Some k => Some (mkH s' (h_log h ++ [(k, HLoad (HTask k))]) (remove_nth i (h_tasks h)) (h_thr h ++ [k]) (h_next h))
          | None => None
          end
      | LWork i r =>
          match nth_error (h_thr h) i, nth_error (d_act s) i with
          | Some t, Some (o :: _) =>
              let ts := fresh_tasks (h_next h) (d_pool s) (d_pool s') in
              Some (mkH s' (h_log h ++ by_ t (op_mem o r (h_next h))) (h_tasks h ++ ts)
                     (if Nat.ltb (length (d_act s')) (length (d_act s)) then remove_nth i (h_thr h) else h_thr h)
                     (h_next h + length ts))
          | _, _ => None
          end
      | LMain r =>
          match d_main s with
          | MRun (o :: _) =>
              let ts := fresh_tasks (h_next h) (d_pool s) (d_pool s') in
              Some (mkH s' (h_log h ++ by_ 0 (op_mem o r (h_next h))) (h_tasks h ++ ts) (h_thr h) (h_next h + length ts))
          | _ => Some (mkH s' (h_log h ++ by_ 0 (main_mem c s)) (h_tasks h) (h_thr h) (h_next h))
          end
      end
  end.

Fixpoint hrun (c : dcfg) (h : hst) (ls : list dlabel) : option hst :=
  match ls with [] => Some h | l :: r => match hstep c h l with Some h' => hrun c h' r | None => None end end.
