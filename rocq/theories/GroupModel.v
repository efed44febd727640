(** Group elements: cluster, condition, multi-condition, some
    (src/GraphCtrl/GraphElement/GGroup/). *)
From Verif Require Export ListUtil ElemModel.
From Coq Require Import Lia.
Local Open Scope nat_scope.
Local Open Scope list_scope.

(** A call to a child: its fatProcessor(RUN), or its isMatch(). *)
Inductive gcall := GRun (c : nat) | GMatch (c : nat).
(** What it does: [g_out] for GRun (a status, or an exception that left the child, see C15/C54), [g_flag] for GMatch. *)
Record gresp := mkG { g_out : out status; g_flag : bool }.
Definition glog := list (gcall * gresp).
(** The children: any behaviour depending on everything that happened before. *)
Definition gask := glog -> gcall -> gresp.

Section Seq.
Variable ask : gask.

(** GCluster::run, GCluster/GCluster.cpp 19-27. *)
Fixpoint cluster_loop (children : list nat) (st : status) (l : glog) : glog * out status :=
  match children with
  | [] => (l, Val st)
  | c :: cs =>
      let r := ask l (GRun c) in
      let l1 := l ++ [(GRun c, r)] in
      match g_out r with
      | Val v =>
          let st' := st_assign st v in
          match check_status st' with
          | Continue => cluster_loop cs st' l1
          | ReturnStatus s => (l1, Val s)
          | ThrowExc m => (l1, Thrown (what_of m))
          end
      | o => (l1, o)
      end
  end.
Definition cluster_run (children : list nat) (l : glog) : glog * out status := cluster_loop children st_default l.

(** GCondition::run, GCondition/GCondition.cpp 19-35; [choice] is what choose() returned (an int). *)
Definition condition_run (children : list nat) (choice : Z) (l : glog) : glog * out status :=
  let run c :=
    let r := ask l (GRun c) in
    (l ++ [(GRun c, r)], match g_out r with Val v => Val (st_assign st_default v) | o => o end) in
  if (choice =? -1)%Z && negb (match children with [] => true | _ => false end) then run (last children 0)
  else if (0 <=? choice)%Z && (choice <? Z.of_nat (List.length children))%Z then run (nth (Z.to_nat choice) children 0)
  else (l, Val st_default).

(** GMultiCondition<SERIAL>::serialRun, GCondition/GMultiCondition.inl 47-59. *)
Fixpoint serial_multi_loop (children : list nat) (st : status) (l : glog) : glog * out status :=
  match children with
  | [] => (l, Val st)
  | c :: cs =>
      let m := ask l (GMatch c) in
      let l0 := l ++ [(GMatch c, m)] in
      if g_flag m then
        let r := ask l0 (GRun c) in
        let l1 := l0 ++ [(GRun c, r)] in
        match g_out r with
        | Val v =>
            let st' := st_assign st v in
            match check_status st' with
            | Continue => serial_multi_loop cs st' l1
            | ReturnStatus s => (l1, Val s)
            | ThrowExc m => (l1, Thrown (what_of m))
            end
        | o => (l1, o)
        end
      else serial_multi_loop cs st l0
  end.
Definition serial_multi_run (children : list nat) (l : glog) : glog * out status := serial_multi_loop children st_default l.
End Seq.

(** * Parallel multi-condition *)
(** GMultiCondition<PARALLEL>::parallelRun, GMultiCondition.inl 63-85. The pool is taken to run every committed task once,
    at any time (C40); a task whose child throws stores the exception in the future, whose get() rethrows it. *)
Inductive ptask := PQueued | PRunning | PEnded (o : out status).
Inductive pmain := PCommit (todo : list nat) | PJoin (todo : nat) (st : status) | PRet (o : out status).
Inductive pev := PEMatch (c : nat) (m : bool) | PEStart (c : nat) | PEEnd (c : nat) (o : out status) | PEReturn (o : out status).
Record pstate := mkP { p_main : pmain; p_tasks : list (nat * ptask); p_evs : list pev }.
(** [PLMain m]: next step of the caller ([m]: the answer of isMatch, if it asks); task [i] starts; task [i] ends with [o]. *)
Inductive plabel := PLMain (m : bool) | PLStart (i : nat) | PLEnd (i : nat) (o : out status).
Fixpoint set_nth {A} (l : list A) (i : nat) (x : A) : list A :=
  match l, i with [], _ => [] | _ :: r, O => x :: r | a :: r, S j => a :: set_nth r j x end.
Definition par_step (s : pstate) (lb : plabel) : option pstate :=
  match lb with
  | PLMain m =>
      match p_main s with
      | PCommit [] => Some (mkP (PJoin 0 st_default) (p_tasks s) (p_evs s))
      | PCommit (c :: cs) =>
          if m then Some (mkP (PCommit cs) (p_tasks s ++ [(c, PQueued)]) (p_evs s ++ [PEMatch c m]))
          else Some (mkP (PCommit cs) (p_tasks s) (p_evs s ++ [PEMatch c m]))
      | PJoin i st =>
          match nth_error (p_tasks s) i with
          | None => Some (mkP (PRet (Val st)) (p_tasks s) (p_evs s ++ [PEReturn (Val st)]))
          | Some (_, PEnded (Val v)) => Some (mkP (PJoin (S i) (st_plus st v)) (p_tasks s) (p_evs s))
          | Some (_, PEnded o) => Some (mkP (PRet o) (p_tasks s) (p_evs s ++ [PEReturn o]))
          | Some _ => None
          end
      | PRet _ => None
      end
  | PLStart i =>
      match nth_error (p_tasks s) i with
      | Some (c, PQueued) => Some (mkP (p_main s) (set_nth (p_tasks s) i (c, PRunning)) (p_evs s ++ [PEStart c]))
      | _ => None
      end
  | PLEnd i o =>
      match nth_error (p_tasks s) i with
      | Some (c, PRunning) => Some (mkP (p_main s) (set_nth (p_tasks s) i (c, PEnded o)) (p_evs s ++ [PEEnd c o]))
      | _ => None
      end
  end.
Definition par_init (children : list nat) : pstate := mkP (PCommit children) [] [].
Fixpoint par_steps (s : pstate) (ls : list plabel) : option pstate :=
  match ls with [] => Some s | l :: r => match par_step s l with Some s' => par_steps s' r | None => None end end.

(** * Some *)
(** GSome::run, GSome/GSome.cpp 40-79. Children are 0 .. n-1. A task (the lambda of 54-63) is queued, executes
    fatProcessor of its child, has got its status, or is gone (critical section 57-62 done). Only state TIMEOUT of the
    child itself is modelled: set by 72-76 (done_ is never true for a child: only the dynamic engine sets it, for the
    elements it runs), cleared by GElementRepository::reset (GElementRepository.cpp 44-59) after the pipeline run.
    A child whose state is not NORMAL skips its body and reports OK (GElement.cpp 242). Exceptions leaving a child end
    the program here (the task has no future) and are not modelled. wait_num_ does not overflow (children < 2^31). *)
Inductive stask := SQueued | SBody | SFin (s : status) | SGone.
Inductive smain := SIdle | SExec (k : nat) | SEval | SSleep (notified : bool) | SMark (k : nat) | SDone (r : status).
(** SERun: run() is called, trigger number w; SEBody/SESkip: a child starts its body / skips it; SEEnd: the body ends;
    SECount: a child's end is counted with its status; SERet: run() returns; SEReset: the end of the pipeline run. *)
Inductive sev := SERun (w : Z) | SEBody (c : nat) | SESkip (c : nat) | SEEnd (c : nat) (s : status)
  | SECount (c : nat) (s : status) | SERet (r : status) | SEReset.
Record some_st := mkS { s_wait : Z; s_cur : status; s_tasks : list (nat * stask); s_tmo : nat -> bool; s_main : smain; s_evs : list sev }.
(** Labels: a call of run(), the next step of the caller, a spurious wakeup, a step of task [i] (with the status of the
    body when it ends), the pipeline's reset. *)
Inductive slabel := SLRun (w : Z) | SLMain | SLSpurious | SLStart (i : nat) | SLEnd (i : nat) (s : status) | SLCount (i : nat) | SLReset.
Definition some_pred (s : some_st) : bool := (s_wait s <=? 0)%Z || isErr (s_cur s).
Definition some_step (n : nat) (s : some_st) (lb : slabel) : option some_st :=
  match lb with
  | SLRun w =>
      match s_main s with
      | SIdle | SDone _ =>
          (* wait_num_ > children_.size() compares as size_t: a negative int is rejected too *)
          if (w <? 0)%Z || (Z.of_nat n <? w)%Z
          then let e := st_err "num is bigger than elements size." in
               Some (mkS w (s_cur s) (s_tasks s) (s_tmo s) (SDone e) (s_evs s ++ [SERun w; SERet e]))
          else Some (mkS w (st_reset (s_cur s)) (s_tasks s) (s_tmo s) (SExec 0) (s_evs s ++ [SERun w]))
      | _ => None
      end
  | SLMain =>
      match s_main s with
      | SExec k =>
          if k <? n then Some (mkS (s_wait s) (s_cur s) (s_tasks s ++ [(k, SQueued)]) (s_tmo s) (SExec (S k)) (s_evs s))
          else Some (mkS (s_wait s) (s_cur s) (s_tasks s) (s_tmo s) SEval (s_evs s))
      | SEval => Some (mkS (s_wait s) (s_cur s) (s_tasks s) (s_tmo s) (if some_pred s then SMark 0 else SSleep false) (s_evs s))
      | SSleep true => Some (mkS (s_wait s) (s_cur s) (s_tasks s) (s_tmo s) SEval (s_evs s))
      | SMark k =>
          if k <? n then Some (mkS (s_wait s) (s_cur s) (s_tasks s) (upd (s_tmo s) k true) (SMark (S k)) (s_evs s))
          else let r := st_assign st_default (s_cur s) in
               Some (mkS (s_wait s) (s_cur s) (s_tasks s) (s_tmo s) (SDone r) (s_evs s ++ [SERet r]))
      | _ => None
      end
  | SLSpurious =>
      match s_main s with
      | SSleep false => Some (mkS (s_wait s) (s_cur s) (s_tasks s) (s_tmo s) SEval (s_evs s))
      | _ => None
      end
  | SLStart i =>
      match nth_error (s_tasks s) i with
      | Some (c, SQueued) =>
          if s_tmo s c then Some (mkS (s_wait s) (s_cur s) (set_nth (s_tasks s) i (c, SFin st_default)) (s_tmo s) (s_main s) (s_evs s ++ [SESkip c]))
          else Some (mkS (s_wait s) (s_cur s) (set_nth (s_tasks s) i (c, SBody)) (s_tmo s) (s_main s) (s_evs s ++ [SEBody c]))
      | _ => None
      end
  | SLEnd i r =>
      match nth_error (s_tasks s) i with
      | Some (c, SBody) => Some (mkS (s_wait s) (s_cur s) (set_nth (s_tasks s) i (c, SFin r)) (s_tmo s) (s_main s) (s_evs s ++ [SEEnd c r]))
      | _ => None
      end
  | SLCount i =>
      (* the critical section; the caller holds the lock from its last evaluation of the predicate until it returns *)
      match s_main s with
      | SMark _ => None
      | _ =>
          match nth_error (s_tasks s) i with
          | Some (c, SFin r) =>
              let w := (s_wait s - 1)%Z in
              let cur := st_plus (s_cur s) r in
              let m := match s_main s with
                       | SSleep b => SSleep (b || (w <=? 0)%Z || isErr cur)
                       | x => x
                       end in
              Some (mkS w cur (set_nth (s_tasks s) i (c, SGone)) (s_tmo s) m (s_evs s ++ [SECount c r]))
          | _ => None
          end
      end
  | SLReset =>
      (* waits for the children that execute their body (HOLD_BY_PIPELINE), then clears TIMEOUT *)
      match s_main s with
      | SIdle | SDone _ =>
          if forallb (fun t => match snd t with SBody => false | _ => true end) (s_tasks s)
          then Some (mkS (s_wait s) (s_cur s) (s_tasks s) (fun _ => false) (s_main s) (s_evs s ++ [SEReset]))
          else None
      | _ => None
      end
  end.
Definition some_init : some_st := mkS 0 st_default [] (fun _ => false) SIdle [].
Fixpoint some_steps (n : nat) (s : some_st) (ls : list slabel) : option some_st :=
  match ls with [] => Some s | l :: r => match some_step n s l with Some s' => some_steps n s' r | None => None end end.
