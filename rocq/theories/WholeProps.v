(** C102: a pipeline as a whole. *)
From Verif Require Import WholeModel GraphSpec WholeSpec WholeProofs GraphProps StatusProofs ElemProofs PipeProofs PipeLife PipeProps.
From Verif Require Import DynProps FastProps.
From Coq Require Import ZArith Lia.
Local Open Scope nat_scope.
Local Open Scope list_scope.

(** The elements of the pipeline (nodes and groups at top level), the graph that any history [h] of dependency calls leaves on
    them, any engine and any schedule of every run. [i]: inits, then the rounds, then [z]: destroys; and nothing else. *)
Theorem C102_process : forall ask tr eng st h n p p' o,
  let top := map eid (c_elems (pp_cfg p)) in
  let g := graph_of (dep_run st h) top in
  no_edges st -> NoDup top -> (forall e, In e top -> incl (dep g e) top /\ incl (succ g e) top) ->
  engine_behind ask tr g eng -> pipe_process ask n p = (p', o) ->
  exists d i rounds z, pp_log p' = pp_log p ++ d /\
    history tr (pp_log p) d = i ++ concat (map (map VRun) rounds) ++ z /\
    Forall (fun v => exists e, v = VInit e) i /\ Forall (fun v => exists e, v = VDestroy e) z /\
    length rounds <= n /\ up_to_the_last g rounds /\
    (i = map VInit (flat_map tree_nodes (c_elems (pp_cfg p))) \/ rounds = [] /\ z = []) /\
    (ok_out o = true -> length rounds = n /\ Forall (complete_round g) rounds /\
       i = map VInit (flat_map tree_nodes (c_elems (pp_cfg p))) /\ z = map VDestroy (flat_map tree_nodes (c_elems (pp_cfg p)))) /\
    (~ acyclic g -> ok_out o = false /\ i = [] /\ rounds = [] /\ z = []).
Proof.
  intros ask tr eng st h n p p' o top g NE ND CL (HS & HE & HC) E.
  assert (W : wf g) by (apply C03_reachable_graphs_wf; assumption).
  destruct (setup_ok eng g) eqn:SO.
  2:{ assert (NA : ~ acyclic g) by (intro A; apply (setup_acyclic eng g W) in A; congruence).
      assert (X : exists oi, pipe_init ask p = (p', oi) /\ ok_out oi = false /\ o = oi).
      { destruct (C24_process _ _ _ _ _ E) as [X|(p1 & k & p2 & rs & X & _)]; [exact X|]. destruct (init_cyclic _ _ _ _ HS X) as [Y _]. discriminate. }
      destruct X as (oi & EI & BO & ->). destruct (init_cyclic _ _ _ _ HS EI) as [_ G]. destruct (not_engine _ _ _ G) as (d & L & F & H); [easy|].
      assert (H0 : history tr (pp_log p) d = []).
      { rewrite H. apply vis0_nil. intros c C. rewrite Forall_forall in F. specialize (F c C). destruct c; easy. }
      exists d, [], [], []. split; [exact L|]. split; [exact H0|]. do 2 (split; [constructor|]). split; [apply Nat.le_0_l|]. split.
      { exists [], []. split; [reflexivity|]. split; [apply Nat.le_0_l|]. split; constructor. }
      split; [right; now split|]. split; [rewrite BO; discriminate|]. intros _. repeat (split; [first [exact BO|reflexivity]|]). reflexivity. }
  assert (A : acyclic g) by now apply (setup_acyclic eng g W).
  specialize (HE eq_refl).
  destruct (C24_process _ _ _ _ _ E) as [(oi & EI & BO & ->)|(p1 & k & p2 & rs & EI & LE & HH & PRE & H)].
  - destruct (not_engine _ _ _ (init_grows _ _ _ _ EI)) as (d & L & F & H); [easy|].
    exists d, (flat_map vis0 (map fst d)), [], []. split; [exact L|]. split; [rewrite H; cbn; now rewrite app_nil_r|]. split; [now apply init_only|].
    split; [constructor|]. split; [apply Nat.le_0_l|]. split.
    { exists [], []. split; [reflexivity|]. split; [apply Nat.le_0_l|]. split; constructor. }
    split; [right; now split|]. split; [rewrite BO; discriminate|contradiction].
  - destruct (init_visible ask tr p p1 EI) as (di & LI & HI). destruct (pipe_init_spec _ _ _ _ EI) as (CI & _ & _ & IS & _). cbn in IS. destruct IS as (_ & _ & I1 & CA1 & _).
    assert (R : pp_init p2 = true /\ c_elems (pp_cfg p2) = c_elems (pp_cfg p) /\ pp_cancel p2 = false /\
      exists dr rounds, pp_log p2 = pp_log p1 ++ dr /\ history tr (pp_log p1) dr = concat (map (map VRun) rounds) /\ length rounds <= k /\
        up_to_the_last g rounds /\ (Forall (fun r => ok_out r = true) rs -> length rounds = k /\ Forall (complete_round g) rounds)).
    { destruct k as [|k].
      - cbn in HH. injection HH as <- <-. split; [exact I1|]. split; [now rewrite CI|]. split; [exact CA1|]. exists [], []. rewrite app_nil_r.
        do 2 (split; [reflexivity|]). split; [apply le_n|]. split; [|split; [reflexivity|constructor]].
        exists [], []. split; [reflexivity|]. split; [apply Nat.le_0_l|]. split; constructor.
      - rewrite <- Nat.add_1_r, repeat_app, hist_app in HH. destruct (pipe_history ask (repeat ORun k) p1) as [pk rk] eqn:EK.
        destruct (PRE k (Nat.lt_succ_diag_r k) _ _ EK) as [_ FK]. destruct (full_rounds ask tr g eng W A HE HC k _ _ _ I1 EK FK) as (IK & CK & dk & fk & LK & HK & NK & CMP).
        cbn [repeat pipe_history pipe_step] in HH. destruct (pipe_run ask pk) as [pz oz] eqn:EZ. injection HH as <- <-.
        destruct (run_round ask tr g eng W A HE HC _ _ _ IK EZ) as (IZ & CZ & XZ & dz & lz & LZ & HZ & NZ & PZ & OZ).
        split; [exact IZ|]. split; [now rewrite CZ, CK, CI|]. split; [exact XZ|]. exists (dk ++ dz), (fk ++ lz). split; [rewrite app_assoc, <- LK; exact LZ|].
        split; [rewrite history_app, <- LK, HK, HZ, map_app, concat_app; reflexivity|]. split; [rewrite app_length; lia|]. split.
        + exists fk, lz. auto.
        + intro FR. apply Forall_app in FR. destruct FR as [_ FR]. inversion FR as [|? ? OK _]; subst. destruct (OZ OK) as [N1 F1]. split; [rewrite app_length; lia|now apply Forall_app]. }
    destruct R as (I2 & C2 & CA2 & dr & rounds & LR & HR & NR & UP & FUL).
    destruct H as [(rs0 & x & -> & NV & -> & ->)|(ss & dd & -> & WHY & ED & H)].
    + exists (di ++ dr), (map VInit (flat_map tree_nodes (c_elems (pp_cfg p)))), rounds, []. split; [rewrite app_assoc, <- LI; exact LR|].
      split; [rewrite history_app, <- LI, HI, HR, app_nil_r; reflexivity|]. split; [apply Forall_forall; intros v V; apply in_map_iff in V; destruct V as (e & <- & _); now exists e|].
      split; [constructor|]. split; [lia|]. split; [exact UP|]. split; [now left|]. split; [|contradiction].
      intro X. destruct (ok_out_val _ X) as (s & -> & _). now destruct (NV s).
    + destruct (not_engine _ _ _ (destroy_grows _ _ _ _ ED)) as (dz & LZ & FZ & HZ); [easy|].
      exists (di ++ dr ++ dz), (map VInit (flat_map tree_nodes (c_elems (pp_cfg p)))), rounds, (flat_map vis0 (map fst dz)).
      split; [rewrite !app_assoc, <- LI, <- LR; exact LZ|].
      split; [rewrite history_app, <- LI, HI, history_app, <- LR, HR, HZ; reflexivity|].
      split; [apply Forall_forall; intros v V; apply in_map_iff in V; destruct V as (e & <- & _); now exists e|].
      split; [now apply destroy_only|]. split; [lia|]. split; [exact UP|]. split; [now left|]. split; [|contradiction].
      intro OK. destruct H as [(w & -> & ->)|(X & ->)].
      2:{ destruct (ok_out_val _ OK) as (s & -> & _). now destruct (X s). }
      apply ok_val in OK. rewrite st_sum_spec in OK by reflexivity.
      assert (NF : find isErr (ss ++ [w]) = None).
      { destruct (find isErr (ss ++ [w])) as [e|] eqn:F; [|reflexivity]. apply find_some in F. destruct F as [_ F]. apply isErr_lt in F. lia. }
      assert (AOK : forall s, In s (ss ++ [w]) -> (0 <= code s)%Z) by (intros s X; apply isErr_ge; now apply (find_none _ _ NF)).
      assert (FR : Forall (fun r => ok_out r = true) (map Val ss)).
      { apply Forall_forall. intros r X. apply in_map_iff in X. destruct X as (s & <- & X). apply ok_val, AOK, in_or_app. now left. }
      destruct (FUL FR) as [NK CMP].
      assert (KN : k = n).
      { destruct WHY as [X|[X|(s & X & Y)]]; [exact X|congruence|]. specialize (AOK s (in_or_app _ _ _ (or_introl X))). lia. }
      split; [congruence|]. split; [exact CMP|]. split; [reflexivity|].
      assert (WD : w = st_default).
      { destruct (pipe_destroy_spec _ _ _ _ ED) as (_ & _ & DS & _). rewrite (proj2 (ok_val w)) in DS by (apply AOK, in_or_app; right; now left).
        destruct DS as [DS _]. now injection DS. }
      subst w. destruct (destroy_visible ask tr _ _ ED) as (dz' & LZ' & HZ'). assert (dz' = dz) as -> by (rewrite LZ' in LZ; now apply app_inv_head in LZ).
      rewrite HZ in HZ'. rewrite HZ'. unfold nodes. now rewrite C2.
Qed.
Print Assumptions C102_process.

(** If moreover the graph has no cycle (nor the inside of any group), the pipeline is fresh, no call of the user's code reports
    an error and no element finishes with one in any run, then process succeeds: so all [n] rounds are complete. *)
Theorem C102_success : forall ask tr eng st h n p p' o,
  let top := map eid (c_elems (pp_cfg p)) in
  let g := graph_of (dep_run st h) top in
  no_edges st -> NoDup top -> (forall e, In e top -> incl (dep g e) top /\ incl (succ g e) top) ->
  engine_behind ask tr g eng -> pipe_process ask n p = (p', o) ->
  acyclic g -> pp_init p = false -> (forall e, pp_flag p e = false) -> c_shared (pp_cfg p) <> Some false ->
  (forall lg c, c <> KEngine -> (0 <= code (pr_st (ask lg c)))%Z) -> (forall lg e, pr_flag (ask lg (KDag (Some e))) = true) ->
  (forall lg e r, In (GFinish e r) (tr lg) -> (0 <= code r)%Z) ->
  ok_out o = true.
Proof.
  intros ask tr eng st h n p p' o top g NE ND CL (HS & HE & HC) E A Hi HF SH F FD FT.
  assert (W : wf g) by (apply C03_reachable_graphs_wf; assumption).
  assert (SO : setup_ok eng g = true) by now apply (setup_acyclic eng g W). specialize (HE SO).
  assert (EN : forall lg, (0 <= code (pr_st (ask lg KEngine)))%Z /\ pr_thr (ask lg KEngine) = None).
  { intro lg. destruct (HE lg) as (r & ER & AN). destruct (engine_proper _ _ _ _ W A ER) as (_ & _ & BAD). destruct r as [v|m].
    - destruct AN as [AT <-]. split; [|exact AT]. destruct (Z_lt_ge_dec (code (pr_st (ask lg KEngine))) 0) as [X|X]; [|lia].
      destruct (BAD _ eq_refl X) as (e & I). apply FT in I. exact I.
    - destruct (engine_throw _ _ _ _ m W A ER eq_refl) as (e & v & I & X). apply FT in I. lia. }
  refine (process_fine ask _ _ n p p' o Hi _ SH E).
  - intros lg c. split; [destruct c; first [apply EN|apply F; discriminate]|]. intros w ->. destruct w as [e|]; [apply FD|]. now rewrite HS.
  - intro lg. apply EN.
  - apply Bool.not_true_is_false. intro X. apply existsb_exists in X. destruct X as (x & _ & X). now rewrite HF in X.
Qed.
Print Assumptions C102_success.

(** The diamond of GraphProps, one of its elements a region with a cluster inside, on the dynamic engine with two workers:
    process(3) initialises the five nodes, runs three rounds and destroys. *)
Definition whole_cfg : cfg := mkC [Node 0; Node 1; Region 2 [Node 12; Plain 13 [Node 14]]; Node 3; Node 4] [70] [80] [90] None [].
Definition whole_p : pipe := mkPipe false (fun _ => false) whole_cfg false false [].
Definition whole_h : list dep_op := [OAdd 1 [Some 0]; OAdd 2 [Some 0]; OAdd 3 [Some 1; Some 2]; OAdd 4 [Some 3]].
Definition dyn_s : option dst :=
  match dstep diamond_c (d_init diamond_c) LRun with Some s0 => drun diamond_c s0 (greedy (fun _ => st_default) 200 s0) | None => None end.
Definition dyn_tr : list gevent := match dyn_s with Some s => trace s | None => [] end.
Definition whole_ask : pask := fun _ c => mkPR st_default None (match c with KEngine => false | _ => true end) [].
Lemma dyn_run : engine_run diamond (EDynamic (fun _ => (-1)%Z)) dyn_tr (EReturn st_default).
Proof.
  assert (X : exists ls s, exec diamond_c (LRun :: ls) s /\ d_out s = Some st_default /\ trace s = dyn_tr).
  { let l := eval vm_compute in (match dstep diamond_c (d_init diamond_c) LRun with Some s0 => greedy (fun _ => st_default) 200 s0 | None => [] end) in exists l.
    eexists. split; [split; [vm_compute; reflexivity|]|split; vm_compute; reflexivity].
    eapply disciplined_one_run; [vm_compute; reflexivity|]. intro Hin. repeat (destruct Hin as [Hin|Hin]; [discriminate Hin|]). exact Hin. }
  destruct X as (ls & s & X & O & <-). change (fun _ : nat => (-1)%Z) with (c_bind diamond_c). eapply er_common; [vm_compute; reflexivity|reflexivity|exact X|exact O].
Qed.
Example C102_nonvacuous :
  let top := map eid (c_elems (pp_cfg whole_p)) in
  let g := graph_of (dep_run blank whole_h) top in
  no_edges blank /\ NoDup top /\ (forall e, In e top -> incl (dep g e) top /\ incl (succ g e) top) /\
  engine_behind whole_ask (fun _ => dyn_tr) g (EDynamic (fun _ => (-1)%Z)) /\ acyclic g /\
  (forall lg c, c <> KEngine -> (0 <= code (pr_st (whole_ask lg c)))%Z) /\ (forall e r, In (GFinish e r) dyn_tr -> (0 <= code r)%Z) /\
  snd (pipe_process whole_ask 3 whole_p) = Val st_default /\
  history (fun _ => dyn_tr) [] (pp_log (fst (pipe_process whole_ask 3 whole_p))) =
    map VInit [0; 1; 12; 14; 3; 4] ++ map VRun dyn_tr ++ map VRun dyn_tr ++ map VRun dyn_tr ++ map VDestroy [0; 1; 12; 14; 3; 4] /\
  starts dyn_tr = [0; 1; 2; 3; 4].
Proof.
  cbv zeta. split; [intro; split; reflexivity|]. split; [repeat constructor; cbn; intuition discriminate|].
  split; [intros e He; simpl in He; intuition subst; vm_compute; intros x Hx; intuition|].
  split. { split; [intro; vm_compute; reflexivity|]. split; [|reflexivity]. intros _ lg. exists (EReturn st_default). split; [exact dyn_run|split; reflexivity]. }
  split; [exact diamond_acyclic|]. split; [intros; vm_compute; discriminate|].
  split. { intros e r I. let t := eval vm_compute in dyn_tr in change dyn_tr with t in I. repeat (destruct I as [I|I]; [first [discriminate I|injection I as _ <-; vm_compute; discriminate]|]). destruct I. }
  split; [vm_compute; reflexivity|]. split; vm_compute; reflexivity.
Qed.
(** The third round on the topological engine fails in element 2: two complete rounds, a third without 3 and 4, destroy of all. *)
Definition engine_runs (lg : plog) : nat := length (filter (fun e => match fst e with KEngine => true | _ => false end) lg).
Definition third (lg : plog) (e : nat) : status := if Nat.eqb (engine_runs lg) 2 && Nat.eqb e 2 then boom else st_default.
Definition topo_tr (lg : plog) : list gevent := fst (topo_run (third lg) [0; 1; 2; 3; 4] st_default).
Definition third_ask : pask := fun lg c => match c with KEngine => mkPR (if Nat.eqb (engine_runs lg) 2 then boom else st_default) None false [] | _ => fine_resp end.
Example C102_fails_nonvacuous :
  let g := graph_of (dep_run blank whole_h) (map eid (c_elems (pp_cfg whole_p))) in
  engine_behind third_ask topo_tr g ETopo /\ snd (pipe_process third_ask 9 whole_p) = Val boom /\
  exists full last, Forall (complete_round g) full /\ length full = 2 /\ starts last = [0; 1; 2] /\
    history topo_tr [] (pp_log (fst (pipe_process third_ask 9 whole_p))) =
      map VInit [0; 1; 12; 14; 3; 4] ++ concat (map (map VRun) (full ++ [last])) ++ map VDestroy [0; 1; 12; 14; 3; 4].
Proof.
  cbv zeta. set (g := graph_of (dep_run blank whole_h) (map eid (c_elems (pp_cfg whole_p)))).
  assert (RUN : forall lg, engine_run g ETopo (topo_tr lg) (EReturn (if Nat.eqb (engine_runs lg) 2 then boom else st_default))).
  { intro lg. eapply (er_topo _ (third lg) [0; 1; 2; 3; 4]); [vm_compute; reflexivity|]. unfold topo_tr, third. destruct (Nat.eqb (engine_runs lg) 2); vm_compute; reflexivity. }
  split. { split; [intro; vm_compute; reflexivity|]. split; [|reflexivity]. intros _ lg. eexists. split; [apply RUN|split; reflexivity]. }
  split; [vm_compute; reflexivity|]. exists [topo_tr []; topo_tr []], (topo_tr [(KEngine, fine_resp); (KEngine, fine_resp)]).
  assert (CR : complete_round g (topo_tr [])).
  { destruct (engine_proper g ETopo _ _ diamond_wf diamond_acyclic (RUN [])) as (_ & X & _). apply (X st_default eq_refl). vm_compute. discriminate. }
  split; [constructor; [exact CR|constructor; [exact CR|constructor]]|]. split; [reflexivity|]. split; vm_compute; reflexivity.
Qed.
