(** C02 (dependency edges), C03 (init iff acyclic), C04 (topological engine), C05 (static engine). *)
From Verif Require Import GraphModel GraphSpec DepProofs TopoProofs StaticModel StaticProofs EngineSeqProofs StatusProofs.
From Coq Require Import Lia.
Local Open Scope nat_scope.

(** * C02 *)

(** After any history, "a depends on b" and "b precedes a" are the same relation, irreflexive, stored without duplicates. *)
Theorem C02_edges_symmetric : forall st h, no_edges st ->
  let st' := dep_run st h in
  (forall a b, In b (e_dep (st' a)) <-> In a (e_succ (st' b))) /\
  (forall a, ~ In a (e_dep (st' a))) /\
  (forall a, NoDup (e_dep (st' a)) /\ NoDup (e_succ (st' a))).
Proof. intros st h H. exact (dep_run_edges_ok h st (no_edges_ok st H)). Qed.
Print Assumptions C02_edges_symmetric.

(** Effect of one insertion: exactly the requested edges up to the first refused one are added, nothing is removed. *)
Theorem C02_add_exact : forall st this l st' ok, addDepend st this l = (st', ok) ->
  exists inserted rest,
    l = map Some inserted ++ rest /\ (ok = true -> rest = []) /\
    (forall a b, In b (e_dep (st' a)) <-> In b (e_dep (st a)) \/ (a = this /\ In b inserted /\ b <> this)).
Proof.
  intros st this l st' ok H. destruct (addDepend_spec _ _ _ _ _ H) as [done [[rest [E1 E2]] [_ [Hd _]]]].
  exists done, rest. auto.
Qed.
Print Assumptions C02_add_exact.

(** Effect of one removal. *)
Theorem C02_remove_exact : forall st h this d st' ok, no_edges st -> removeDepend (dep_run st h) this (Some d) = (st', ok) ->
  (ok = false -> st' = dep_run st h) /\
  (ok = true -> (forall a b, In b (e_dep (st' a)) <-> In b (e_dep (dep_run st h a)) /\ ~ (a = this /\ b = d))).
Proof.
  intros st h this d st' ok H0 H. pose proof (dep_run_edges_ok h st (no_edges_ok st H0)) as Hok. split; intros E; subst ok.
  - unfold removeDepend in H. destruct (e_init (dep_run st h this)); [inversion H; reflexivity|].
    destruct (memb d (e_dep (dep_run st h this))); simpl in H; [discriminate|]. inversion H; reflexivity.
  - apply (removeDepend_spec _ _ _ _ Hok) in H. apply H.
Qed.
Print Assumptions C02_remove_exact.

(** Edges join elements of the same parent as long as elements are grouped before they get edges. *)
Theorem C53_same_parent_partial : forall st h, no_edges st -> groups_before_edges st h ->
  forall a b, In b (e_dep (dep_run st h a)) -> e_belong (dep_run st h a) = e_belong (dep_run st h b).
Proof.
  intros st h H Hg. apply dep_run_same_parent; [apply no_edges_ok; exact H| |exact Hg].
  intros a b Hab. unfold depends in Hab. destruct (H a) as [E _]. rewrite E in Hab. contradiction.
Qed.
Print Assumptions C53_same_parent_partial.

Definition blank : gst := fun _ => mkElem None [] [] 0%Z false false.
(** In general they do not: putting one end of an existing edge into a group leaves an edge between two parents. *)
Theorem C53_same_parent_refuted : exists h a b,
  In b (e_dep (dep_run blank h a)) /\ e_belong (dep_run blank h a) <> e_belong (dep_run blank h b).
Proof. exists [OAdd 1 [Some 0]; OGroup 0 9 false], 1, 0. split; [left; reflexivity|]. vm_compute. discriminate. Qed.
Print Assumptions C53_same_parent_refuted.

(** Non-vacuity: a history with a refused insertion half way, a group and a removal. *)
Example C02_nonvacuous : no_edges blank /\
  (let h := [OGroup 0 7 false; OGroup 1 7 false; OAdd 1 [Some 0]; OAdd 3 [Some 2; None; Some 4]; OAdd 3 [Some 4; Some 0]; ORemove 3 (Some 2)] in
   groups_before_edges blank h /\ e_dep (dep_run blank h 3) = [4] /\ e_dep (dep_run blank h 1) = [0] /\ e_succ (dep_run blank h 0) = [1]).
Proof. split; [intros e; split; reflexivity|]. vm_compute. repeat split; auto. Qed.

(** * C03 *)

(** Every set of elements closed under its edges is well formed, after any history (link to C02). *)
Theorem C03_reachable_graphs_wf : forall st h l, no_edges st -> NoDup l ->
  (forall e, In e l -> incl (e_dep (dep_run st h e)) l /\ incl (e_succ (dep_run st h e)) l) ->
  wf (graph_of (dep_run st h) l).
Proof. intros st h l H Hnd Hc. apply wf_of_state; auto. apply dep_run_edges_ok, no_edges_ok, H. Qed.
Print Assumptions C03_reachable_graphs_wf.

Theorem C03_init_iff_acyclic : forall g, wf g ->
  (acyclic g ->
     (exists l, topo_setup g = Some (Some l) /\ topo_order g l) /\
     (exists m, static_setup g = Some (Some m) /\ layering g m) /\
     isDag g = Some true) /\
  (~ acyclic g -> topo_setup g = Some None /\ static_setup g = Some None /\ isDag g = Some false).
Proof.
  intros g Hwf. destruct (topo_setup_spec g Hwf) as [T1 T2]. destruct (static_setup_spec g Hwf) as [S1 S2]. destruct (isDag_spec g Hwf) as [D1 D2].
  split; intros H; auto.
Qed.
Print Assumptions C03_init_iff_acyclic.

(** Without closure (one end of an edge moved into a group, see C02) a cyclic group is accepted. *)
Theorem C53_foreign_edges_refuted : exists h l,
  let g := graph_of (dep_run blank h) l in
  NoDup l /\ path g 1 1 /\ isDag g = Some true.
Proof.
  exists [OAdd 10 [Some 0]; OAdd 11 [Some 0]; OAdd 1 [Some 2]; OAdd 2 [Some 1]; OGroup 0 9 false; OGroup 1 9 false; OGroup 2 9 false], [0; 1; 2].
  cbn zeta. split; [repeat constructor; simpl; intuition discriminate|]. split; [|vm_compute; reflexivity].
  apply t_trans with 2; apply t_step; split; vm_compute; auto.
Qed.
Print Assumptions C53_foreign_edges_refuted.

(** A diamond with a tail, built by API calls; and a cyclic graph, rejected. *)
Definition diamond : graph := graph_of (dep_run blank [OAdd 1 [Some 0]; OAdd 2 [Some 0]; OAdd 3 [Some 1; Some 2]; OAdd 4 [Some 3]]) [0; 1; 2; 3; 4].
Lemma diamond_wf : wf diamond.
Proof.
  apply C03_reachable_graphs_wf; [intros e; split; reflexivity|repeat constructor; simpl; intuition discriminate|].
  intros e He. simpl in He. intuition subst; vm_compute; intros x Hx; intuition.
Qed.
Lemma diamond_acyclic : acyclic diamond.
Proof. apply (topo_order_acyclic diamond diamond_wf [0; 1; 2; 3; 4]). assert (H := C03_init_iff_acyclic diamond diamond_wf).
  destruct (acyclic_dec diamond diamond_wf) as [Ha|Ha].
  - destruct (proj1 H Ha) as [[l [El Hl]] _]. vm_compute in El. inversion El; subst. exact Hl.
  - destruct (proj2 H Ha) as [Hx _]. vm_compute in Hx. discriminate.
Qed.
Definition two_cycle : graph := graph_of (dep_run blank [OAdd 1 [Some 0]; OAdd 0 [Some 1]]) [0; 1].
Example C03_nonvacuous : wf diamond /\ acyclic diamond /\ wf two_cycle /\ ~ acyclic two_cycle.
Proof.
  split; [exact diamond_wf|]. split; [exact diamond_acyclic|]. split.
  - apply C03_reachable_graphs_wf; [intros e; split; reflexivity|repeat constructor; simpl; intuition discriminate|].
    intros e He. simpl in He. intuition subst; vm_compute; intros x Hx; intuition.
  - intros H. apply (H 0). apply t_trans with 1; apply t_step; split; vm_compute; auto.
Qed.

(** * C04 *)

(** [check_result s] is how a failed status leaves a function: returned, or thrown for the crash code (UtilsDefine.h 123-129). *)
Theorem C04_topo_engine : forall g res, wf g -> acyclic g ->
  exists order tr out,
    topo_setup g = Some (Some order) /\ topo_run res order st_default = (tr, out) /\
    starts_after_deps g tr /\ starts_once tr /\
    (exists p, tr = flat_map (fun e => [GStart e; GFinish e (res e)]) p) /\
    ((forall e, In e (els g) -> (0 <= code (res e))%Z) -> all_ran g tr /\ out = EReturn st_default) /\
    (forall f, In f (els g) -> (code (res f) < 0)%Z ->
       exists f' tr', (code (res f') < 0)%Z /\ tr = tr' ++ [GStart f'; GFinish f' (res f')] /\
         (forall e r, In (GFinish e r) tr' -> (0 <= code r)%Z) /\ out = check_result (res f')).
Proof. exact topo_engine_lemma. Qed.
Print Assumptions C04_topo_engine.

Example C04_nonvacuous : wf diamond /\ acyclic diamond /\
  topo_run (fun e => if Nat.eqb e 2 then st_err EmptyString else st_default) [0; 1; 2; 3; 4] st_default =
  ([GStart 0; GFinish 0 st_default; GStart 1; GFinish 1 st_default; GStart 2; GFinish 2 (st_err EmptyString)], EReturn (st_err EmptyString)).
Proof. split; [exact diamond_wf|]. split; [exact diamond_acyclic|]. vm_compute. reflexivity. Qed.

(** * C05 *)

(** For every schedule [ls] of the caller and the workers, with every possible result of every element. *)
Theorem C05_static_engine : forall g inl, wf g -> acyclic g ->
  exists mat, static_setup g = Some (Some mat) /\ layering g mat /\
  forall ls s, srun (s_init inl mat) ls = Some s ->
    starts_after_deps g (s_tr s) /\
    starts_once (s_tr s) /\
    (forall v, s_out s = Some (EReturn v) -> (0 <= code v)%Z ->
       v = st_default /\ all_ran g (s_tr s) /\ (forall e r, In (GFinish e r) (s_tr s) -> (0 <= code r)%Z)) /\
    (forall f r i j li lj e, In (GFinish f r) (s_tr s) -> (code r < 0)%Z ->
       nth_error mat i = Some li -> nth_error mat j = Some lj -> i < j -> In f li -> In e lj -> ~ In (GStart e) (s_tr s)) /\
    (forall v, s_out s = Some (EReturn v) -> (code v < 0)%Z -> exists e, In (GFinish e v) (s_tr s)) /\
    (forall m, s_out s = Some (EThrow m) -> exists e v, In (GFinish e v) (s_tr s) /\ code v = STATUS_CRASH /\ m = info v).
Proof.
  intros g inl Hwf Ha. destruct (static_setup_spec g Hwf) as [H _]. destruct (H Ha) as [m [Em Hl]].
  exists m. split; [exact Em|]. split; [exact Hl|]. intros ls s Hr.
  destruct (srun_inv inl g m Hwf Hl ls _ [] s (sinv_init inl g m) Hr) as [con I].
  split; [apply (si_deps _ _ _ _ _ I)|]. split; [apply (sinv_once inl g m Hwf Hl s con I)|].
  split; [intros v; apply (sinv_ok inl g m Hwf Hl s con v I)|].
  split; [intros f r i j li lj e; apply (sinv_failure_stops inl g m Hwf Hl s con f r i j li lj e I)|].
  pose proof (sinv_err inl g m s con I) as He.
  split; [intros v E; rewrite E in He; exact He|intros msg E; rewrite E in He; exact He].
Qed.
Print Assumptions C05_static_engine.

(** The static engine never blocks and every execution is finite: as long as run has not returned some thread can
    step, and no schedule is longer than an explicit bound. *)
Theorem C05_terminates : forall g inl, wf g -> acyclic g ->
  exists mat, static_setup g = Some (Some mat) /\
  forall ls s, srun (s_init inl mat) ls = Some s ->
    (s_out s = None -> exists l s', sstep s l = Some s') /\
    length ls <= 3 * length (static_prog inl mat) + 1.
Proof.
  intros g inl Hwf Ha. destruct (static_setup_spec g Hwf) as [H _]. destruct (H Ha) as [m [Em Hl]].
  exists m. split; [exact Em|]. intros ls s Hr.
  destruct (srun_inv inl g m Hwf Hl ls _ [] s (sinv_init inl g m) Hr) as [con I].
  split; [apply (sinv_progress inl g m Hwf Hl s con I)|].
  apply srun_measure in Hr. unfold s_measure in Hr. simpl in Hr. lia.
Qed.
Print Assumptions C05_terminates.

Example C05_nonvacuous : wf diamond /\ acyclic diamond /\ static_setup diamond = Some (Some [[0]; [1; 2]; [3]; [4]]) /\
  exists ls s, srun (s_init (fun e => Nat.eqb e 1) [[0]; [1; 2]; [3]; [4]]) ls = Some s /\
    s_out s = Some (EReturn st_default) /\ starts (s_tr s) = [0; 1; 2; 3; 4].
Proof.
  split; [exact diamond_wf|]. split; [exact diamond_acyclic|]. split; [vm_compute; reflexivity|].
  exists [SMain st_default; SStart 0; SFinish 0 st_default; SMain st_default; SMain st_default;
          SMain st_default; SMain st_default; SStart 2; SMain st_default; SFinish 2 st_default; SMain st_default; SMain st_default;
          SMain st_default; SStart 3; SFinish 3 st_default; SMain st_default; SMain st_default;
          SMain st_default; SStart 4; SFinish 4 st_default; SMain st_default; SMain st_default; SMain st_default].
  eexists. split; [vm_compute; reflexivity|]. split; vm_compute; reflexivity.
Qed.
