(** The parallel path of the dynamic engine with a log of its synchronisation: the same steps as FastModel (GDynamicEngine.cpp 229-288), and beside them what every step does to memory.
    parallel_run_num_ is stored with the default order (230), incremented with release order only (283) and read with the default order (255, 264); cur_status_ is a plain object
    (GDynamicEngine.h 111), written under status_lock_ (277-280) and read without it (264, 271, 284, 47). Queues, thread numbers and simplifications are as in HbModel. *)
From Verif Require Import GraphModel DynModel FastModel HbSpec HbModel.
Local Open Scope nat_scope.

Record phst := mkPH {
  ph_s : pst;
  ph_log : hlog;           (* since the last call of run *)
  ph_tasks : list nat;     (* the numbers of the waiting tasks, beside p_pool *)
  ph_thr : list nat;       (* the numbers of the tasks the busy workers execute, beside p_act; the caller is thread 0 *)
  ph_next : nat            (* number of the next task *)
}.
Definition ph_init : phst := mkPH p_init [] [] [] 1.

(** parallelRunOne, GDynamicEngine.cpp 270-288; [n] >= total_end_size_ is tested first (284), so the status is read only if it fails. *)
Definition pop_mem (c : pcfg) (o : pop) (r : status) : list hact :=
  match o with
  | PTest _ => [HNote NRead]
  | PStart e => [HNote (NStart e)]
  | PBody e => [HNote (NFinish e r)]
  | PErr _ _ => [HLock HStat; HNote NRead; HNote NWrite; HUnlock HStat]
  | PCount _ => [HRel HFin]
  | PCheck n => if Nat.leb (length (p_els c)) n then [] else [HNote NRead]
  | PNotify => [HLock HMtx; HUnlock HMtx]
  end.
(** prepareRun 307-315, parallelRunAll 229-268, run 47; [k] is the number of the task that a push creates. *)
Definition pmain_mem (c : pcfg) (s : pst) (k : nat) : list hact :=
  let full := Nat.leb (length (p_els c)) (p_num s) in
  match p_main s with
  | QPrep => if isOK (p_stat s) then [HNote NRead]
             else HNote NRead :: map (fun e => HStore (HLeft e)) (p_els c) ++ [HNote NWrite]
  | QZero => [HStore HFin]
  | QPush (_ :: _) => [HStore (HTask k)]
  | QPoll (S _) => [HLoad HFin]
  | QLock => [HLock HMtx]
  | QEvalNum => if full then [HLoad HFin; HUnlock HMtx] else [HLoad HFin]
  | QEvalErr => if isErr (p_stat s) then [HNote NRead; HUnlock HMtx] else [HNote NRead]
  | QPreSleep => [HUnlock HMtx]
  | QRet => [HNote NRead; HNote (NRet (p_stat s))]
  | _ => []
  end.

Definition phstep (c : pcfg) (h : phst) (lb : dlabel) : option phst :=
  let s := ph_s h in
  match pstep c s lb with
  | None => None
  | Some s' =>
      match lb with
      | LRun => Some (mkPH s' [(0, HNote NCall)] (ph_tasks h) (ph_thr h) (ph_next h))
      | LSpurious => Some (mkPH s' (ph_log h) (ph_tasks h) (ph_thr h) (ph_next h))
      | LPick i =>
          match nth_error (ph_tasks h) i with
          | Some k => Some (mkPH s' (ph_log h ++ [(k, HLoad (HTask k))]) (remove_nth i (ph_tasks h)) (ph_thr h ++ [k]) (ph_next h))
          | None => None
          end
      | LWork i r =>
          match nth_error (ph_thr h) i, nth_error (p_act s) i with
          | Some t, Some o =>
              Some (mkPH s' (ph_log h ++ by_ t (pop_mem c o r)) (ph_tasks h)
                     (if Nat.ltb (length (p_act s')) (length (p_act s)) then remove_nth i (ph_thr h) else ph_thr h) (ph_next h))
          | _, _ => None
          end
      | LMain _ =>
          let new := match p_main s with QPush (_ :: _) => true | _ => false end in
          Some (mkPH s' (ph_log h ++ by_ 0 (pmain_mem c s (ph_next h)))
                 (if new then ph_tasks h ++ [ph_next h] else ph_tasks h) (ph_thr h) (if new then S (ph_next h) else ph_next h))
      end
  end.
Fixpoint phrun (c : pcfg) (h : phst) (ls : list dlabel) : option phst :=
  match ls with [] => Some h | l :: r => match phstep c h l with Some h' => phrun c h' r | None => None end end.
