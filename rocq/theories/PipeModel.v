(** The life cycle of a pipeline: GPipeline init, run, destroy, process (src/GraphCtrl/GraphPipeline/GPipeline.cpp 36-124,
    359-376), GElementManager init, destroy (GElementManager.cpp 23-54), GGroup/GRegion init, destroy (GGroup.cpp 18-42,
    GRegion.cpp 27-48), GElementRepository (GElementRepository.cpp 27-143), GParamManager, GEventManager, GDaemonManager. *)
From Verif Require Export ListUtil ElemModel GraphModel.
From Coq Require Import Lia.
Local Open Scope nat_scope.
Local Open Scope list_scope.

(** Elements: a node (or adapter); a group whose init/destroy is GGroup's (cluster, condition, multi-condition, some; also
    mutable, whose extra empty engine is left out); a region, with an element manager of its own. Lists are in the order
    the containers are iterated. *)
Inductive elt := Node (e : nat) | Plain (e : nat) (cs : list elt) | Region (e : nat) (cs : list elt).
Definition eid (t : elt) : nat := match t with Node e | Plain e _ | Region e _ => e end.
Fixpoint ids (t : elt) : list nat :=
  match t with Node e => [e] | Plain e cs | Region e cs => e :: flat_map ids cs end.

(** Calls from the pipeline to code outside this model. Node callbacks go through fatProcessor, which returns a status
    whatever they do (C15); parameter and event callbacks are taken not to throw. *)
Inductive pcall :=
| KSuit (e : nat)                      (* checkSuitable *)
| KDag (r : option nat)                (* engine setup of the pipeline / of a region: is the graph acyclic (C03) *)
| KInit (e : nat) | KDestroy (e : nat)
| KPInit (k : nat) | KPSetup (k : nat) | KPReset (k : nat) (s : status) | KPDestroy (k : nat)
| KEvInit (k : nat) | KEvDestroy (k : nat) | KEvWait (k : nat)
| KDmInit (d : nat) | KDmDestroy (d : nat)
| KEngine                              (* element_manager_->run(): the engine *)
| KHeld (e : nat).                     (* getAsyncResult of an element with HOLD_BY_PIPELINE *)
(** Answers: a status; for KEngine also an exception, whether cancel() was called meanwhile, and the parameters the
    elements created; for KDag the flag says acyclic. *)
Record presp := mkPR { pr_st : status; pr_thr : option string; pr_flag : bool; pr_new : list nat }.
Definition plog := list (pcall * presp).
Definition pask := plog -> pcall -> presp.

(** What registration and configuration calls determine. [c_shared]: None: unique thread pool; Some b: shared pool, b:
    it is initialised (GSchedule.cpp). [c_held]: elements with a timeout and HOLD_BY_PIPELINE. *)
Record cfg := mkC { c_elems : list elt; c_params : list nat; c_events : list nat; c_daemons : list nat; c_shared : option bool; c_held : list nat }.
Definition all_ids (c : cfg) : list nat := flat_map ids (c_elems c).
(** [pp_flag]: is_init_ of the elements; [pp_pool]: the unique thread pool exists; [pp_cancel]: repository state CANCEL. *)
Record pipe := mkPipe { pp_init : bool; pp_flag : nat -> bool; pp_cfg : cfg; pp_pool : bool; pp_cancel : bool; pp_log : plog }.

Section Pipe.
Variable ask : pask.

Definition EL := ((nat -> bool) * plog)%type.
(** fatProcessor around a status or an exception, GElement.cpp 221-286 (no aspects, visible element). *)
Definition fat_wrap (o : out status) : status :=
  match o with Val v => st_assign st_default v | Thrown m => st_assign st_default (mkStatus STATUS_CRASH m) | _ => mkStatus STATUS_CRASH "" (* not reached *) end.
(** GGroup::init / destroy, GGroup.cpp 18-42: all children, statuses added. *)
Definition plain_loop (f : elt -> EL -> EL * status) : list elt -> status -> EL -> EL * status :=
  fix go cs st s := match cs with [] => (s, st) | c :: r => let '(s1, v) := f c s in go r (st_plus st v) s1 end.
(** The loop of GElementManager::init / destroy, GElementManager.cpp 33-37, 46-50; [b]: the new is_init_. *)
Definition mgr_loop (f : elt -> EL -> EL * status) (b : bool) : list elt -> status -> EL -> EL * out status :=
  fix go cs st s :=
    match cs with
    | [] => (s, Val st)
    | c :: r =>
        let '((fl, l), v) := f c s in
        let st' := st_assign st v in
        match check_status st' with
        | Continue => go r st' (upd fl (eid c) b, l)
        | ReturnStatus w => ((fl, l), Val w)
        | ThrowExc m => ((fl, l), Thrown (what_of m))
        end
    end.
(** initEngine, then the loop (GElementManager.cpp 23-40); destroy has no engine step that can fail. *)
Definition mgr_life (f : elt -> EL -> EL * status) (b : bool) (who : option nat) (cs : list elt) (s : EL) : EL * out status :=
  if b then
    let r := ask (snd s) (KDag who) in
    let s1 := (fst s, snd s ++ [(KDag who, r)]) in
    if pr_flag r then mgr_loop f b cs st_default s1
    else (s1, Val (st_err "it is not a dag struct"))
  else mgr_loop f b cs st_default s.
(** fatProcessor(INIT) ([b] = true) / fatProcessor(DESTROY) of an element. *)
Fixpoint fat_life (b : bool) (t : elt) (s : EL) : EL * status :=
  match t with
  | Node e =>
      let c := if b then KInit e else KDestroy e in
      let r := ask (snd s) c in
      ((fst s, snd s ++ [(c, r)]), fat_wrap (Val (pr_st r)))
  | Plain e cs =>
      let '((fl, l), st) := plain_loop (fat_life b) cs st_default s in
      match check_status st with
      | Continue => ((upd fl e b, l), fat_wrap (Val st))
      | ReturnStatus v => ((fl, l), fat_wrap (Val v))
      | ThrowExc m => ((fl, l), fat_wrap (Thrown (what_of m)))
      end
  | Region e cs =>
      let '((fl, l), o) := mgr_life (fat_life b) b (Some e) cs s in
      match o with
      | Val v =>
          match check_status (st_assign st_default v) with
          | Continue => ((upd fl e b, l), fat_wrap (Val (st_assign st_default v)))
          | ReturnStatus w => ((fl, l), fat_wrap (Val w))
          | ThrowExc m => ((fl, l), fat_wrap (Thrown (what_of m)))
          end
      | o => ((fl, l), fat_wrap o)
      end
  end.

(** A loop "status += f(k)" over parameters, events or daemons. *)
Fixpoint add_loop (f : nat -> pcall) (ks : list nat) (st : status) (l : plog) : plog * status :=
  match ks with [] => (l, st) | k :: r => let a := ask l (f k) in add_loop f r (st_plus st (pr_st a)) (l ++ [(f k, a)]) end.
(** A loop whose calls return nothing (reset of parameters, GParamManager.cpp 59-63; asyncWait of events). *)
Fixpoint void_loop (f : nat -> pcall) (ks : list nat) (l : plog) : plog :=
  match ks with [] => l | k :: r => void_loop f r (l ++ [(f k, ask l (f k))]) end.
(** GElementRepository::init, GElementRepository.cpp 115-137: checkSuitable of every element. *)
Fixpoint suit_loop (es : list nat) (st : status) (l : plog) : plog * out status :=
  match es with
  | [] => (l, Val st)
  | e :: r =>
      let a := ask l (KSuit e) in
      let st' := st_assign st (pr_st a) in
      match check_status st' with
      | Continue => suit_loop r st' (l ++ [(KSuit e, a)])
      | ReturnStatus v => (l ++ [(KSuit e, a)], Val v)
      | ThrowExc m => (l ++ [(KSuit e, a)], Thrown (what_of m))
      end
  end.
Definition not_suitable : status := st_err "init status is not suitable".
Definition with_log (p : pipe) (l : plog) : pipe := mkPipe (pp_init p) (pp_flag p) (pp_cfg p) (pp_pool p) (pp_cancel p) l.

(** GPipeline::initEnv, GPipeline.cpp 359-376. setThreadPool throws for an element whose is_init_ is set (GElement.cpp 362);
    the repository holds every element of the trees (fetchAll). *)
Definition init_env (p : pipe) : pipe * out status :=
  match c_shared (pp_cfg p) with
  | Some false => (p, Val (st_err "shared thread pool is not init."))
  | sh =>
      let pool := match sh with None => true | _ => pp_pool p end in
      let p1 := mkPipe (pp_init p) (pp_flag p) (pp_cfg p) pool (pp_cancel p) (pp_log p) in
      if existsb (pp_flag p) (all_ids (pp_cfg p)) then (p1, Thrown "[CException] init status is not suitable")
      else
        let '(l, o) := suit_loop (all_ids (pp_cfg p)) st_default (pp_log p) in
        match o with
        | Val st => (mkPipe (pp_init p) (pp_flag p) (pp_cfg p) pool (if isErr st then pp_cancel p else false) l, Val (st_plus st_default st))
        | o => (mkPipe (pp_init p) (pp_flag p) (pp_cfg p) pool (pp_cancel p) l, o)
        end
  end.
(** GPipeline::init, GPipeline.cpp 36-53. *)
Definition pipe_init (p : pipe) : pipe * out status :=
  if pp_init p then (p, Val not_suitable)
  else
    let '(p1, o) := init_env p in
    match o with
    | Val v =>
        match check_status (st_plus st_default v) with
        | Continue =>
            let '(l1, s1) := add_loop KPInit (c_params (pp_cfg p1)) st_default (pp_log p1) in
            let '(l2, s2) := add_loop KEvInit (c_events (pp_cfg p1)) st_default l1 in
            let '((fl, l3), o3) := mgr_life (fat_life true) true None (c_elems (pp_cfg p1)) (pp_flag p1, l2) in
            match o3 with
            | Val s3 =>
                let '(l4, s4) := add_loop KDmInit (c_daemons (pp_cfg p1)) st_default l3 in
                let st := st_plus (st_plus (st_plus (st_plus (st_plus st_default v) s1) s2) s3) s4 in
                match check_status st with
                | Continue => (mkPipe true fl (pp_cfg p1) (pp_pool p1) (pp_cancel p1) l4, Val st)
                | ReturnStatus w => (mkPipe false fl (pp_cfg p1) (pp_pool p1) (pp_cancel p1) l4, Val w)
                | ThrowExc m => (mkPipe false fl (pp_cfg p1) (pp_pool p1) (pp_cancel p1) l4, Thrown (what_of m))
                end
            | o => (mkPipe false fl (pp_cfg p1) (pp_pool p1) (pp_cancel p1) l3, o)
            end
        | ReturnStatus w => (p1, Val w)
        | ThrowExc m => (p1, Thrown (what_of m))
        end
    | o => (p1, o)
    end.
(** GPipeline::run, GPipeline.cpp 56-77; repository_.setup() sets the state NORMAL. *)
Definition pipe_run (p : pipe) : pipe * out status :=
  if negb (pp_init p) then (p, Val not_suitable)
  else
    let '(l1, s1) := add_loop KPSetup (c_params (pp_cfg p)) st_default (pp_log p) in
    let p1 := mkPipe true (pp_flag p) (pp_cfg p) (pp_pool p) false l1 in
    match check_status (st_plus st_default s1) with
    | ReturnStatus w => (p1, Val w)
    | ThrowExc m => (p1, Thrown (what_of m))
    | Continue =>
        let a := ask l1 KEngine in
        let l2 := l1 ++ [(KEngine, a)] in
        let c := pp_cfg p in
        let c2 := mkC (c_elems c) (c_params c ++ pr_new a) (c_events c) (c_daemons c) (c_shared c) (c_held c) in
        match pr_thr a with
        | Some m => (mkPipe true (pp_flag p) c2 (pp_pool p) (pr_flag a) l2, Thrown m)
        | None =>
            let '(l3, s3) := add_loop KHeld (c_held c) st_default l2 in
            let l4 := void_loop KEvWait (c_events c) l3 in
            let st := st_plus (st_plus (st_assign (st_plus st_default s1) (pr_st a)) s3) st_default in
            let l5 := void_loop (fun k => KPReset k st) (c_params c2) l4 in
            (mkPipe true (pp_flag p) c2 (pp_pool p) (pr_flag a) l5, Val st)
        end
    end.
(** GPipeline::destroy, GPipeline.cpp 80-103. The unique pool is deleted first. *)
Definition pipe_destroy (p : pipe) : pipe * out status :=
  if negb (pp_init p) then (p, Val not_suitable)
  else
    let pool := match c_shared (pp_cfg p) with None => false | _ => pp_pool p end in
    let '(l1, s1) := add_loop KEvDestroy (c_events (pp_cfg p)) st_default (pp_log p) in
    let '(l2, s2) := add_loop KDmDestroy (c_daemons (pp_cfg p)) st_default l1 in
    let '((fl, l3), o3) := mgr_life (fat_life false) false None (c_elems (pp_cfg p)) (pp_flag p, l2) in
    match o3 with
    | Val s3 =>
        let '(l4, s4) := add_loop KPDestroy (c_params (pp_cfg p)) st_default l3 in
        let st := st_plus (st_plus (st_plus (st_plus st_default s1) s2) s3) s4 in
        match check_status st with
        | Continue => (mkPipe false fl (pp_cfg p) pool false l4, Val st)
        | ReturnStatus w => (mkPipe true fl (pp_cfg p) pool false l4, Val w)
        | ThrowExc m => (mkPipe true fl (pp_cfg p) pool false l4, Thrown (what_of m))
        end
    | o => (mkPipe true fl (pp_cfg p) pool false l3, o)
    end.
(** GPipeline::process, GPipeline.cpp 106-124. *)
Fixpoint run_times (n : nat) (st : status) (p : pipe) : pipe * out status :=
  match n with
  | O => (p, Val st)
  | S m =>
      if isErr st || pp_cancel p then (p, Val st)
      else match pipe_run p with
           | (p1, Val v) => run_times m (st_plus st v) p1
           | (p1, o) => (p1, o)
           end
  end.
Definition pipe_process (n : nat) (p : pipe) : pipe * out status :=
  match pipe_init p with
  | (p1, Val v) =>
      let st0 := st_assign st_default v in
      match check_status st0 with
      | Continue =>
          match run_times n st0 p1 with
          | (p2, Val st) =>
              match pipe_destroy p2 with
              | (p3, Val d) => (p3, Val (st_plus st d))
              | r => r
              end
          | r => r
          end
      | ReturnStatus w => (p1, Val w)
      | ThrowExc m => (p1, Thrown (what_of m))
      end
  | r => r
  end.

(** API calls. The configuration calls differ in how they refuse: with an error status or with an exception. [OConfig]
    stands for an accepted call that replaces the configuration (elements are only ever added). Parameters can be created
    at any time (GParamManagerWrapper.h). *)
Inductive cfgop := OpRegister | OpRegisterNode | OpMakeSerial | OpSave | OpLoad   (* GPipeline.inl 25, 83; GPipeline.cpp 130, 146, 276, 327, 347 *)
  | OpCreate | OpAddAspect | OpAddDaemon | OpAddEvent | OpAddStage | OpSetEngine | OpSetPoolConfig | OpSetPool | OpMaxPara | OpTrim | OpPerf. (* GPipeline.inl 126, 154, 184, 203, 240, 255; GPipeline.cpp 221, 230, 240, 254, 261, 268 *)
Definition refusal (o : cfgop) : out status :=
  match o with
  | OpRegister | OpRegisterNode | OpMakeSerial | OpSave | OpLoad => Val not_suitable
  | _ => Thrown "[CException] init status is not suitable"
  end.
Inductive pop := OInit | ORun | ODestroy | OProcess (n : nat) | OAsyncRun | OAsyncProcess (n : nat) | OCancel | OSuspend | OResume
  | OConfig (o : cfgop) (c : cfg) | OParam (k : nat).
Definition extends (c c' : cfg) : bool := forallb (fun e => memb e (all_ids c')) (all_ids c).
Definition pipe_step (p : pipe) (o : pop) : pipe * out status :=
  match o with
  | OInit => pipe_init p
  | ORun => pipe_run p
  | ODestroy => pipe_destroy p
  | OProcess n => pipe_process n p
  | OAsyncRun => if pp_init p then pipe_run p else (p, Thrown "[CException] init status is not suitable")            (* GPipeline.cpp 159-169; the result is the future's *)
  | OAsyncProcess n => if pp_init p then (p, Thrown "[CException] init status is not suitable") else pipe_process n p
  | OCancel => if pp_init p then (mkPipe true (pp_flag p) (pp_cfg p) (pp_pool p) true (pp_log p), Val st_default) else (p, Val not_suitable)
  | OSuspend | OResume => if pp_init p then (mkPipe true (pp_flag p) (pp_cfg p) (pp_pool p) false (pp_log p), Val st_default) else (p, Val not_suitable)
  | OConfig o c => if pp_init p then (p, refusal o)
      else if extends (pp_cfg p) c then (mkPipe false (pp_flag p) c (pp_pool p) (pp_cancel p) (pp_log p), Val st_default) else (p, Val st_default)
  | OParam k => let c := pp_cfg p in
      (mkPipe (pp_init p) (pp_flag p) (mkC (c_elems c) (c_params c ++ [k]) (c_events c) (c_daemons c) (c_shared c) (c_held c)) (pp_pool p) (pp_cancel p) (pp_log p), Val st_default)
  end.
Fixpoint pipe_history (h : list pop) (p : pipe) : pipe * list (out status) :=
  match h with [] => (p, []) | o :: r => let '(p1, v) := pipe_step p o in let '(p2, vs) := pipe_history r p1 in (p2, v :: vs) end.
End Pipe.
Definition no_cfg : cfg := mkC [] [] [] [] None [].
Definition pipe_new : pipe := mkPipe false (fun _ => false) no_cfg false false [].
