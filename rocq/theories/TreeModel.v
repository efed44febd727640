(** Elements inside of each other: executions of a whole tree of groups, with errors at any depth. Every group has the behaviour of its own model (the engines of DynModel, FastModel, StaticModel and GraphModel for regions and the pipeline; clusters,
    conditions and loops as sequences; parallel multi-conditions); the group and its children meet in the starts and ends of the children.
    GRegion.cpp run, 50-57, GElementManager.cpp 57-62 (engine_->run()); GCluster.cpp 19-27; GCondition.cpp 19-36; GCondition/GMultiCondition.inl 27-84; GElement.cpp 221-286 (the loop of fatProcessor, 242-256).
    Simplified: threads appear only through the interleavings they allow (any); no timeouts, no some-groups and no mutable groups; nobody suspends or cancels; all elements are visible; crashed() is not overridden; set up of a region succeeded. *)
From Verif Require Export WholeModel GraphSpec.
Local Open Scope nat_scope.
Local Open Scope list_scope.

(** How an element works. [TSeq may]: one of the sequences of children in [may], one after the other: a cluster has exactly its list; a condition nothing or one child; a serial multi-condition some of its children in their order;
    an element that is repeated (loop, isHold) is the group of its single executions. [TPar may]: parallel multi-condition, one of the selections in [may] all at once. [TEng g k]: region or pipeline with the engine [k] on the graph [g] of its children. *)
Inductive tkind := TNode | TSeq (may : list nat -> Prop) | TPar (may : list nat -> Prop) | TEng (g : graph) (k : engine).
Record tree := mkTree {
  t_root : nat;                (* the pipeline *)
  t_kids : nat -> list nat;
  t_par : nat -> nat;          (* the group an element is in *)
  t_kind : nat -> tkind;
  t_own : nat -> Prop          (* the group has code of its own that may fail: aspects, prepareRun, checkRunResult *)
}.

(** What an engine may have done so far: the starts and ends of elements [tr] of the current run, and the result if it has returned; the states that the models of the engines reach. After it has returned there may still be starts and ends (C115). *)
Inductive eng_at (g : graph) : engine -> list gevent -> option eng_result -> Prop :=
| ea_topo res order tr r p q o : topo_setup g = Some (Some order) -> topo_run res order st_default = (tr, r) -> tr = p ++ q -> o = None \/ (q = [] /\ o = Some r) -> eng_at g ETopo p o
| ea_static inl mat ls s : static_setup g = Some (Some mat) -> srun (s_init inl mat) ls = Some s -> eng_at g EStatic (s_tr s) (s_out s)
| ea_serial bind res prev tr st p q o : analysis_dag_type g bind = AllSerial -> prev = st_default \/ (code prev < 0)%Z -> serial_run g res prev = Some (tr, st) -> tr = p ++ q -> o = None \/ (q = [] /\ o = Some (EReturn st)) -> eng_at g (EDynamic bind) p o
| ea_parallel bind c ls s : analysis_dag_type g bind = AllParallel -> p_els c = els g -> concat (p_rows c) = els g -> FastProps.pexec c ls s -> eng_at g (EDynamic bind) (p_tr s) (option_map EReturn (p_out s))
| ea_common c ls s : analysis_dag_type g (c_bind c) = Common -> c_g c = g -> DynProps.exec c ls s -> eng_at g (EDynamic (c_bind c)) (DynProps.trace s) (option_map EReturn (d_out s)).

(** CGRAPH_FUNCTION_CHECK_STATUS on an error, UtilsDefine.h 123-129: a crash is thrown. *)
Definition checked (r : status) : eng_result := match check_status r with ThrowExc m => EThrow m | _ => EReturn r end.
(** Complete executions of children, one after the other. *)
Definition pairs (ps : list (nat * status)) : list gevent := flat_map (fun x => [GStart (fst x); GFinish (fst x) (snd x)]) ps.
Definition all_good (ps : list (nat * status)) : Prop := forall x, In x ps -> (0 <= code (snd x))%Z.
(** The children of [l] one after the other until the first error: between two of them or at the end, within one, after an error. A cluster checks the status (and throws if it is a crash), a condition and the loop return it. *)
Inductive seq_at (l : list nat) : list gevent -> option eng_result -> Prop :=
| sq_between ps rest : l = map fst ps ++ rest -> all_good ps -> seq_at l (pairs ps) None
| sq_end ps v : l = map fst ps -> all_good ps -> (0 <= code v)%Z -> seq_at l (pairs ps) (Some (EReturn v))
| sq_within ps c rest : l = map fst ps ++ c :: rest -> all_good ps -> seq_at l (pairs ps ++ [GStart c]) None
| sq_error ps c r rest o : l = map fst ps ++ c :: rest -> all_good ps -> (code r < 0)%Z -> o = None \/ o = Some (EReturn r) \/ o = Some (checked r) -> seq_at l (pairs ps ++ [GStart c; GFinish c r]) o.
(** parallelRun, GMultiCondition.inl 64-84: every chosen child is given to the pool; then their statuses are added up in the order of the children. *)
Inductive par_at (l : list nat) (tr : list gevent) : option eng_result -> Prop :=
| pa_run : NoDup (starts tr) -> incl (starts tr) l -> par_at l tr None
| pa_end res : Permutation (starts tr) l -> Permutation (finishes tr) (map (fun c => (c, res c)) l) -> par_at l tr (Some (EReturn (st_sum st_default (map res l)))).
Definition group_at (k : tkind) (tr : list gevent) (o : option eng_result) : Prop :=
  match k with TNode => False | TSeq may => exists l, may l /\ seq_at l tr o | TPar may => exists l, may l /\ par_at l tr o | TEng g e => eng_at g e tr o end.

Record tst := mkTS {
  s_on : nat -> bool;                    (* was executed at least once *)
  s_did : nat -> list gevent;            (* group: starts and ends of its children in its current or latest execution *)
  s_res : nat -> option eng_result;      (* group: what its run() has returned in this execution *)
  s_busy : nat -> nat;                   (* number of executions in progress *)
  s_log : list gevent                    (* all starts and ends *)
}.
Definition t_new : tst := mkTS (fun _ => false) (fun _ => []) (fun _ => None) (fun _ => 0) [].
(** An execution of [e] begins. *)
Definition begins (e : nat) (s : tst) : tst := mkTS (upd (s_on s) e true) (upd (s_did s) e []) (upd (s_res s) e None) (upd (s_busy s) e (S (s_busy s e))) (s_log s ++ [GStart e]).
Definition ends (e : nat) (r : status) (s : tst) : tst := mkTS (s_on s) (s_did s) (s_res s) (upd (s_busy s) e (s_busy s e - 1)) (s_log s ++ [GFinish e r]).
(** The group [p] takes note of it. *)
Definition notes (p : nat) (x : gevent) (s : tst) : tst := mkTS (s_on s) (upd (s_did s) p (s_did s p ++ [x])) (s_res s) (s_busy s) (s_log s).
Definition returns (p : nat) (res : eng_result) (s : tst) : tst := mkTS (s_on s) (s_did s) (upd (s_res s) p (Some res)) (s_busy s) (s_log s).
(** What fatProcessor makes of the result of run(): an exception becomes a crash, GElement.cpp 280-283 and 345-348. *)
Definition reports (res : eng_result) (r : status) : Prop := match res with EReturn v => r = v | EThrow _ => code r = STATUS_CRASH end.
(** What the execution of [e] can end with: anything for a node; for a group the result of its run(); an error if code of its own fails before run() or after it. *)
Definition outcome (T : tree) (s : tst) (e : nat) (r : status) : Prop :=
  match t_kind T e with
  | TNode => True
  | _ => (exists res, s_res s e = Some res /\ reports res r) \/ (t_own T e /\ (code r < 0)%Z /\ (s_did s e = [] \/ s_res s e <> None))
  end.

(** One step of the pipeline: it is run (again only after a run that succeeded); a child starts or ends in its group; the run() of a group returns; the run of the pipeline ends. *)
Inductive tstep (T : tree) (s : tst) : tst -> Prop :=
| ts_run : s_on s (t_root T) = false \/ (s_busy s (t_root T) = 0 /\ exists v, s_res s (t_root T) = Some (EReturn v) /\ (0 <= code v)%Z) -> tstep T s (begins (t_root T) s)
| ts_start e : e <> t_root T -> s_on s (t_par T e) = true -> group_at (t_kind T (t_par T e)) (s_did s (t_par T e) ++ [GStart e]) (s_res s (t_par T e)) ->
    tstep T s (notes (t_par T e) (GStart e) (begins e s))
| ts_end e r : e <> t_root T -> 0 < s_busy s e -> outcome T s e r -> group_at (t_kind T (t_par T e)) (s_did s (t_par T e) ++ [GFinish e r]) (s_res s (t_par T e)) ->
    tstep T s (notes (t_par T e) (GFinish e r) (ends e r s))
| ts_return p res : 0 < s_busy s p -> s_res s p = None -> group_at (t_kind T p) (s_did s p) (Some res) -> tstep T s (returns p res s)
| ts_over r : 0 < s_busy s (t_root T) -> outcome T s (t_root T) r -> tstep T s (ends (t_root T) r s).
Inductive reach (T : tree) : tst -> Prop :=
| re_new : reach T t_new
| re_step s s' : reach T s -> tstep T s s' -> reach T s'.
