(** A pipeline as a whole: the life cycle of PipeModel with one of the three engines behind element_manager_->run()
    (GElementManager::initEngine and run, src/GraphCtrl/GraphElement/GElementManager.cpp 57-63, 106-125), on the graph that
    the registration calls left (GraphModel). *)
From Verif Require Export PipeModel GraphModel StaticModel DynModel FastModel.
From Verif Require Import DynProps FastProps.
From Coq Require Import ZArith.
Local Open Scope nat_scope.
Local Open Scope list_scope.

(** GEngineType (GElementDefine.h); for the dynamic engine with the thread bindings of the elements, which choose its path. *)
Inductive engine := ETopo | EStatic | EDynamic (bind : nat -> Z).
(** Does engine_->setup(manager_elements_) succeed? GTopoEngine.cpp 13-20, GStaticEngine.cpp 13-23, GDynamicEngine.cpp 13-27. *)
Definition setup_ok (k : engine) (g : graph) : bool :=
  match k with
  | ETopo => match topo_setup g with Some (Some _) => true | _ => false end
  | EStatic => match static_setup g with Some (Some _) => true | _ => false end
  | EDynamic _ => match isDag g with Some b => b | None => false end
  end.
(** What engine_->run() does in some execution: [tr], the starts and ends of elements, and its result. Any results of the
    elements, any schedule of the workers, any number of earlier runs. GDynamicEngine::run, GDynamicEngine.cpp 30-48, chooses the path. *)
Inductive engine_run (g : graph) : engine -> list gevent -> eng_result -> Prop :=
| er_topo res order tr r : topo_setup g = Some (Some order) -> topo_run res order st_default = (tr, r) -> engine_run g ETopo tr r
| er_static inl mat ls s r : static_setup g = Some (Some mat) -> srun (s_init inl mat) ls = Some s -> s_out s = Some r ->
    engine_run g EStatic (s_tr s) r
| er_serial bind res prev tr st : analysis_dag_type g bind = AllSerial -> prev = st_default \/ (code prev < 0)%Z ->
    serial_run g res prev = Some (tr, st) -> engine_run g (EDynamic bind) tr (EReturn st)
| er_parallel bind c ls s st : analysis_dag_type g bind = AllParallel -> p_els c = els g -> concat (p_rows c) = els g ->
    pexec c ls s -> p_out s = Some st -> engine_run g (EDynamic bind) (p_tr s) (EReturn st)
| er_common c ls s st : analysis_dag_type g (c_bind c) = Common -> c_g c = g -> exec c ls s -> d_out s = Some st ->
    engine_run g (EDynamic (c_bind c)) (trace s) (EReturn st).

(** What happens to the elements: init and destroy of nodes, starts and ends of the elements of the pipeline. [tr lg]: what
    the engine does when it is called after [lg]. *)
Inductive vis := VInit (e : nat) | VRun (ev : gevent) | VDestroy (e : nat).
Definition vis_of (tr : plog -> list gevent) (pre : plog) (c : pcall) : list vis :=
  match c with KInit e => [VInit e] | KDestroy e => [VDestroy e] | KEngine => map VRun (tr pre) | _ => [] end.
Fixpoint history (tr : plog -> list gevent) (pre d : plog) : list vis :=
  match d with [] => [] | x :: r => vis_of tr pre (fst x) ++ history tr (pre ++ [x]) r end.
(** The world of the pipeline ([ask]) has engine [eng] on graph [g] in it: initEngine reports whether setup succeeded; if the
    graph has no cycle, each engine run is some execution [tr lg] of that engine and the pipeline sees its result; nobody cancels. *)
Definition engine_behind (ask : pask) (tr : plog -> list gevent) (g : graph) (eng : engine) : Prop :=
  (forall lg, pr_flag (ask lg (KDag None)) = setup_ok eng g) /\
  (setup_ok eng g = true -> forall lg, exists r, engine_run g eng (tr lg) r /\
     match r with EReturn s => pr_thr (ask lg KEngine) = None /\ pr_st (ask lg KEngine) = s
                | EThrow m => pr_thr (ask lg KEngine) = Some (what_of m) end) /\
  (forall lg, pr_flag (ask lg KEngine) = false).
