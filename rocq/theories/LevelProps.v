(** C101: elements of a lower level are initialised and destroyed first. *)
From Verif Require Import LevelModel LevelSpec LevelProofs PipeProofs PipeLife PipeProps.
From Coq Require Import ZArith Lia Permutation.
Local Open Scope nat_scope.
Local Open Scope list_scope.

Lemma init_log ask p p' v d : pipe_init ask p = (p', Val v) -> (0 <= code v)%Z -> pp_log p' = pp_log p ++ d -> map fst d = init_calls (pp_cfg p).
Proof.
  intros E V L. destruct (pipe_init_spec ask _ _ _ E) as (_ & _ & _ & H & _). rewrite (proj2 (ok_val v) V) in H.
  destruct H as (_ & _ & _ & _ & _ & _ & _ & (d' & L' & S & _)). rewrite L' in L. apply app_inv_head in L. now subst d'.
Qed.
Lemma destroy_log ask p p' v d : pipe_destroy ask p = (p', Val v) -> (0 <= code v)%Z -> pp_log p' = pp_log p ++ d -> map fst d = destroy_calls (pp_cfg p).
Proof.
  intros E V L. destruct (pipe_destroy_spec ask _ _ _ E) as (_ & _ & H & _). rewrite (proj2 (ok_val v) V) in H.
  destruct H as (_ & _ & _ & _ & _ & (d' & L' & S & _)). rewrite L' in L. apply app_inv_head in L. now subst d'.
Qed.
Lemma in_init c x y : before (flat_map (life_calls true) (c_elems c)) x y -> before (init_calls c) x y.
Proof.
  intro H. unfold init_calls, mgr_calls. rewrite !app_assoc. rewrite <- (app_assoc _ (flat_map _ _)). now apply before_mid.
Qed.
Lemma in_destroy c x y : before (flat_map (life_calls false) (c_elems c)) x y -> before (destroy_calls c) x y.
Proof.
  intro H. unfold destroy_calls, mgr_calls. rewrite !app_assoc. rewrite <- (app_assoc _ (flat_map _ _)). now apply before_mid.
Qed.

(** For every program that builds a pipeline and sets the levels in time: whenever the pipeline is initialised, every node
    in the element of the lower level is initialised before every node in the one of the higher level, if the two stand
    side by side in the pipeline or in a region; and destroyed before it as well.
    Missing: levels set later (C101_late_refuted, C101_later_refuted), elements of other groups (C101_group_refuted). *)
Theorem C101_partial : forall prog s, lrun l_start prog = LDone s -> in_time prog ->
  forall x y, side_by_side prog x y -> (level_of prog x < level_of prog y)%Z ->
  forall a b, within prog a x -> within prog b y -> In (LNode a) prog -> In (LNode b) prog ->
  forall ask p, c_elems (pp_cfg p) = l_top s ->
  (forall p' v d, pipe_init ask p = (p', Val v) -> (0 <= code v)%Z -> pp_log p' = pp_log p ++ d -> before (map fst d) (KInit a) (KInit b)) /\
  (forall p' v d, pipe_destroy ask p = (p', Val v) -> (0 <= code v)%Z -> pp_log p' = pp_log p ++ d -> before (map fst d) (KDestroy a) (KDestroy b)).
Proof.
  intros prog s R TI x y SB L a b WA WB NA NB ask p C. pose proof (inv_run _ _ R) as I. split; intros p' v d E V LG.
  - rewrite (init_log _ _ _ _ _ E V LG). apply in_init. rewrite C. exact (order _ _ true _ _ _ _ I TI SB L WA WB NA NB).
  - rewrite (destroy_log _ _ _ _ _ E V LG). apply in_destroy. rewrite C. exact (order _ _ false _ _ _ _ I TI SB L WA WB NA NB).
Qed.
Print Assumptions C101_partial.

(** Checking by computation that levels are set in time, for the example. *)
Fixpoint in_timeb (bad : list nat) (p : list lop) : bool :=
  match p with
  | [] => true
  | LLevel e _ :: r => negb (memb e bad) && in_timeb bad r
  | LRegister e :: r => in_timeb (e :: bad) r
  | LGroup true _ cs :: r => in_timeb (cs ++ bad) r
  | _ :: r => in_timeb bad r
  end.
Lemma in_timeb_spec0 p : forall bad, in_timeb bad p = true -> forall a e z b, p = a ++ LLevel e z :: b ->
  ~ In e bad /\ ~ In (LRegister e) a /\ forall g cs, In (LGroup true g cs) a -> ~ In e cs.
Proof.
  induction p as [|o p IH]; intros bad H a e z b E; [destruct a; discriminate|]. destruct a as [|o' a]; cbn in E.
  - injection E as -> ->. cbn in H. apply andb_true_iff in H. destruct H as [H _]. apply negb_true_iff in H.
    split; [|now split]. intro X. apply memb_in in X. congruence.
  - injection E as <- E. destruct o as [n|[|] n cs|n w|n]; cbn in H.
    + destruct (IH _ H _ _ _ _ E) as (A & B & C). split; [exact A|]. split; [intros [X|X]; [discriminate|easy]|]. intros g l [X|X]; [discriminate|now apply (C g)].
    + destruct (IH _ H _ _ _ _ E) as (A & B & C). split; [intro X; apply A, in_or_app; now right|]. split; [intros [X|X]; [discriminate|easy]|].
      intros g l [X|X]; [injection X as -> ->; intro Y; apply A, in_or_app; now left|now apply (C g)].
    + destruct (IH _ H _ _ _ _ E) as (A & B & C). split; [exact A|]. split; [intros [X|X]; [discriminate|easy]|]. intros g l [X|X]; [discriminate|now apply (C g)].
    + apply andb_true_iff in H. destruct H as [_ H]. destruct (IH _ H _ _ _ _ E) as (A & B & C). split; [exact A|]. split; [intros [X|X]; [discriminate|easy]|]. intros g l [X|X]; [discriminate|now apply (C g)].
    + destruct (IH _ H _ _ _ _ E) as (A & B & C). split; [intro X; apply A; now right|]. split; [intros [X|X]; [injection X as ->; apply A; now left|easy]|].
      intros g l [X|X]; [discriminate|now apply (C g)].
Qed.
Lemma in_timeb_spec p : in_timeb [] p = true -> in_time p.
Proof. intros H a e z b E. apply (in_timeb_spec0 p [] H a e z b E). Qed.

(** A region 9 (level -1) of 1 (level 5) and 2 (level 2); a node 3 of level -2, a cluster 8 of 4 and 5. *)
Definition level_demo : list lop :=
  [LNode 1; LNode 2; LLevel 1 5; LLevel 2 2; LNode 3; LGroup true 9 [1; 2]; LLevel 3 (-2); LNode 4; LNode 5; LGroup false 8 [5; 4]; LLevel 9 (-1);
   LRegister 8; LRegister 9; LRegister 3].
Example C101_nonvacuous :
  lrun l_start level_demo = LDone (mkL [] [Node 3; Region 9 [Node 2; Node 1]; Plain 8 [Node 5; Node 4]] (l_lev (match lrun l_start level_demo with LDone s => s | _ => l_start end))) /\
  in_time level_demo /\ side_by_side level_demo 3 9 /\ side_by_side level_demo 2 1 /\ (level_of level_demo 2 < level_of level_demo 1)%Z /\
  (level_of level_demo 3 < level_of level_demo 9)%Z /\ within level_demo 1 9 /\
  (let p := mkPipe false (fun _ => false) (mkC [Node 3; Region 9 [Node 2; Node 1]; Plain 8 [Node 5; Node 4]] [] [] [] None []) false false [] in
   filter is_life_call (map fst (pp_log (fst (pipe_init fine_ask p)))) = [KInit 3; KInit 2; KInit 1; KInit 5; KInit 4] /\ snd (pipe_init fine_ask p) = Val st_default).
Proof.
  split; [vm_compute; reflexivity|]. split.
  - apply in_timeb_spec. vm_compute. reflexivity.
  - split; [left; split; cbn; tauto|]. split; [right; exists 9, [1; 2], 9; cbn; repeat split; try tauto; apply wi_self|].
    split; [vm_compute; reflexivity|]. split; [vm_compute; reflexivity|]. split.
    + apply (wi_in _ _ true 9 [1; 2] 1); [cbn; tauto|cbn; tauto|apply wi_self].
    + vm_compute. split; reflexivity.
Qed.

(** Setting a level after the registration has no effect: pipelines of nodes registered in the usual way. *)
Definition set_levels (zs : list (nat * Z)) : list lop := map (fun z => LLevel (fst z) (snd z)) zs.

Definition usual (ns : list nat) (zs : list (nat * Z)) : list lop := map LNode ns ++ map LRegister ns ++ set_levels zs.

Lemma make_nodes ns : forall fr tp lv, NoDup (ns ++ flat_map ids (fr ++ tp)) ->
  lrun (mkL fr tp lv) (map LNode ns) = LDone (mkL (rev (map Node ns) ++ fr) tp lv).
Proof.
  induction ns as [|n r IH]; intros fr tp lv N; [reflexivity|]. cbn [map lrun lstep]. cbn [app] in N. inversion N as [|? ? N1 N2]; subst.
  assert (U : used n (mkL fr tp lv) = false).
  { destruct (used n _) eqn:U; [|reflexivity]. apply used_spec in U. destruct N1. apply in_or_app. now right. }
  rewrite U. cbn [l_free l_top l_lev]. rewrite IH.
  - cbn [rev]. now rewrite <- app_assoc.
  - cbn [app flat_map ids]. eapply Permutation_NoDup; [|exact N]. apply Permutation_middle.
Qed.
Lemma take_in e l : In e (map eid l) -> exists t r, take e l = Some (t, r).
Proof.
  induction l as [|u l IH]; cbn; [easy|]. destruct (Nat.eqb_spec (eid u) e) as [E|N]; [eauto|]. intros [E|H]; [easy|].
  destruct (IH H) as (t & r & ->). eauto.
Qed.
Definition node_only (l : list elt) : Prop := Forall (fun t => t = Node (eid t)) l.
Lemma node_ids l : node_only l -> flat_map ids l = map eid l.
Proof. induction 1 as [|t l H _ IH]; [reflexivity|]. cbn. rewrite IH. now rewrite H. Qed.
Lemma node_perm l l' : Permutation l l' -> node_only l -> node_only l'.
Proof. intros P H. unfold node_only in *. rewrite Forall_forall in *. intros t T. apply H. eapply Permutation_in; [symmetry; exact P|exact T]. Qed.
Lemma register_nodes lv ns : forall fr tp, NoDup ns -> (forall e, In e ns -> In e (map eid fr)) -> NoDup (map eid (fr ++ tp)) -> node_only (fr ++ tp) -> sorted lv tp ->
  exists fr' tp', lrun (mkL fr tp lv) (map LRegister ns) = LDone (mkL fr' tp' lv) /\ sorted lv tp' /\ node_only (fr' ++ tp') /\
    Permutation (fr ++ tp) (fr' ++ tp') /\ (forall e, In e (map eid tp') <-> In e ns \/ In e (map eid tp)).
Proof.
  induction ns as [|n r IH]; intros fr tp ND A N NO S.
  - exists fr, tp. cbn. intuition.
  - cbn [map lrun lstep l_free l_top l_lev]. destruct (take_in n fr) as (t & fr1 & T); [apply A; now left|]. rewrite T.
    destruct (take_spec _ _ _ _ T) as [ET PT]. unfold emplace. rewrite (proj2 (in_order_sorted lv tp) S).
    assert (PF : Permutation (fr ++ tp) (t :: fr1 ++ tp)) by (rewrite PT; reflexivity).
    assert (NT : ~ In (eid t) (map eid tp)).
    { eapply Permutation_NoDup in N; [|apply Permutation_map; exact PF]. cbn in N. inversion N as [|? ? N1 N2]; subst.
      intro H. apply N1. rewrite map_app. apply in_or_app; now right. }
    pose proof (place_perm lv t tp NT) as PP.
    assert (PF' : Permutation (fr ++ tp) (fr1 ++ place lv t tp)).
    { rewrite PF. etransitivity; [apply Permutation_middle|]. now apply Permutation_app_head. }
    inversion ND as [|? ? ND1 ND2]; subst.
    destruct (IH fr1 (place lv t tp)) as (fr' & tp' & R & S' & NO' & P' & M).
    + exact ND2.
    + intros e E. assert (H : In e (map eid (t :: fr1))) by (eapply Permutation_in; [apply Permutation_map; exact PT|]; apply A; now right).
      destruct H as [H|H]; [destruct ND1; now rewrite H|exact H].
    + eapply Permutation_NoDup; [apply Permutation_map; exact PF'|exact N].
    + eapply node_perm; eassumption.
    + now apply place_sorted.
    + exists fr', tp'. split; [exact R|]. split; [exact S'|]. split; [exact NO'|]. split; [now rewrite PF'|]. intro e. rewrite M.
      assert (Q : In e (map eid (place lv t tp)) <-> In e (map eid (t :: tp))).
      { split; apply Permutation_in, Permutation_map; [now symmetry|exact PP]. }
      rewrite Q. cbn. intuition.
Qed.
Lemma levels_only zs : forall fr tp lv, (forall e z, In (e, z) zs -> In e (flat_map ids (fr ++ tp))) ->
  exists lv', lrun (mkL fr tp lv) (set_levels zs) = LDone (mkL fr tp lv').
Proof.
  induction zs as [|[e z] r IH]; intros fr tp lv A; [eexists; reflexivity|]. cbn [set_levels map lrun lstep fst snd].
  rewrite (proj2 (used_spec e (mkL fr tp lv)) (A e z (or_introl eq_refl))). cbn [l_free l_top l_lev]. apply IH. intros e' z' H. apply (A e' z'). now right.
Qed.
Lemma usual_run ns zs : NoDup ns -> (forall e z, In (e, z) zs -> In e ns) ->
  exists fr tp lv, lrun l_start (usual ns zs) = LDone (mkL fr tp lv) /\ sorted (fun _ => 0%Z) tp /\ (forall e, In (Node e) tp <-> In e ns).
Proof.
  intros N A. unfold usual. rewrite lrun_app. unfold l_start. rewrite make_nodes by (cbn; now rewrite app_nil_r). rewrite app_nil_r, lrun_app.
  assert (ME : map eid (rev (map Node ns)) = rev ns) by (rewrite map_rev, map_map; cbn; now rewrite map_id).
  destruct (register_nodes (fun _ => 0%Z) ns (rev (map Node ns)) []) as (fr & tp & R & S & NO & P & M).
  - exact N.
  - intros e E. rewrite ME. now apply in_rev in E.
  - rewrite app_nil_r, ME. now apply NoDup_rev.
  - rewrite app_nil_r. unfold node_only. apply Forall_forall. intros t T. apply in_rev in T. apply in_map_iff in T. destruct T as (n & <- & _). reflexivity.
  - exact I.
  - rewrite R. destruct (levels_only zs fr tp (fun _ => 0%Z)) as (lv' & E).
    + intros e z H. rewrite (node_ids _ NO). rewrite map_app. apply in_or_app. right. apply M. left. eapply A; exact H.
    + rewrite E. exists fr, tp, lv'. split; [reflexivity|]. split; [exact S|]. intro e. unfold node_only in NO. rewrite Forall_forall in NO. split.
      * intro H. apply (in_map eid) in H. apply M in H. destruct H as [H|[]]. exact H.
      * intro H. assert (H' : In e (map eid tp)) by (apply M; now left). apply in_map_iff in H'. destruct H' as (t & <- & T).
        rewrite <- (NO t); [exact T|apply in_or_app; now right].
Qed.
Lemma sorted_lt l u v lev : sorted lev l -> In u l -> In v l -> less lev (eid u) (eid v) = true -> before l u v.
Proof.
  induction l as [|a r IH]; intros S U V L; [easy|]. destruct S as [S1 S2]. destruct U as [->|U], V as [->|V].
  - rewrite less_irrefl in L. discriminate.
  - apply in_split in V. destruct V as (x & y & ->). exists [], x, y. reflexivity.
  - pose proof (S1 _ U) as H. pose proof (less_trans _ _ _ _ L H) as C. rewrite less_irrefl in C. discriminate.
  - destruct (IH S2 U V L) as (x & y & z & ->). exists (a :: x), y, z. reflexivity.
Qed.

(** The claim fails as soon as the levels are set after the registration, which setLevel allows: whatever levels are given
    to whatever nodes, the nodes are initialised in the order of their addresses, in particular one of a higher level
    before one of a lower level. *)
Theorem C101_late_refuted : forall ns zs, NoDup ns -> (forall e z, In (e, z) zs -> In e ns) ->
  exists s, lrun l_start (usual ns zs) = LDone s /\
  forall x y, In x ns -> In y ns -> x < y -> (level_of (usual ns zs) y < level_of (usual ns zs) x)%Z ->
  side_by_side (usual ns zs) y x /\
  forall ask p p' v d, c_elems (pp_cfg p) = l_top s -> pipe_init ask p = (p', Val v) -> (0 <= code v)%Z -> pp_log p' = pp_log p ++ d ->
    before (map fst d) (KInit x) (KInit y).
Proof.
  intros ns zs N A. destruct (usual_run ns zs N A) as (fr & tp & lv & R & S & M). exists (mkL fr tp lv). split; [exact R|].
  intros x y X Y L _. split.
  - left. split; apply in_or_app; right; apply in_or_app; left; now apply in_map.
  - intros ask p p' v d C E V LG. rewrite (init_log _ _ _ _ _ E V LG). apply in_init. rewrite C. cbn [l_top].
    apply (before_flat _ _ (Node x) (Node y)); [|now left|now left].
    apply (sorted_lt _ _ _ (fun _ => 0%Z)); [exact S|now apply M|now apply M|]. unfold less. cbn. now apply Nat.ltb_lt.
Qed.
Print Assumptions C101_late_refuted.
Definition late_demo : list lop := usual [2; 1; 3] [(1, 7%Z); (2, 3%Z); (3, (-4)%Z)].
Example C101_late_nonvacuous : 
  (level_of (late_demo) 3 < level_of (late_demo) 1)%Z /\
  exists s, lrun l_start (late_demo) = LDone s /\
  filter is_life_call (map fst (pp_log (fst (pipe_init fine_ask (mkPipe false (fun _ => false) (mkC (l_top s) [] [] [] None []) false false []))))) = [KInit 1; KInit 2; KInit 3].
Proof. split; [vm_compute; reflexivity|]. eexists. split; [vm_compute; reflexivity|vm_compute; reflexivity]. Qed.

(** Worse: once the levels contradict the order of the set, registering any further element is undefined behaviour. *)
Theorem C101_later_refuted : forall ns zs, NoDup ns -> (forall e z, In (e, z) zs -> In e ns) ->
  forall x y, In x ns -> In y ns -> x < y -> (level_of (usual ns zs) y < level_of (usual ns zs) x)%Z ->
  forall e, ~ In e ns -> lrun l_start (usual ns zs ++ [LNode e; LRegister e]) = LUndef.
Proof.
  intros ns zs N A x y X Y L LV e NE. destruct (usual_run ns zs N A) as (fr & tp & lv & R & S & M). rewrite lrun_app, R.
  pose proof (inv_run _ _ R) as I. assert (U : used e (mkL fr tp lv) = false).
  { destruct (used e _) eqn:U; [|reflexivity]. exfalso. apply used_spec in U. rewrite <- ids_forest in U. apply in_map_iff in U.
    assert (G : forall q t fr tp lv, inv q (mkL fr tp lv) -> lrun l_start q = LDone (mkL fr tp lv) -> In t (parts (mkL fr tp lv)) -> In (LNode (eid t)) q \/ exists k cs, In (LGroup k (eid t) cs) q).
    { clear. intros q t fr tp lv _. revert t fr tp lv. induction q as [|o q IH] using rev_ind; intros t fr tp lv RQ T.
      - injection RQ as <- <- <-. destruct T.
      - rewrite lrun_app in RQ. destruct (lrun l_start q) as [s1| |] eqn:E1; [|discriminate|discriminate]. cbn in RQ.
        destruct (lstep s1 o) as [s2| |] eqn:E2; [|discriminate|discriminate]. injection RQ as ->. pose proof (inv_run _ _ E1) as I1.
        assert (W : In t (parts s1) \/ o = LNode (eid t) \/ exists k cs, o = LGroup k (eid t) cs).
        { destruct s1 as [f1 t1 l1]. destruct o as [e|k e cs|e z|e]; cbn [lstep l_free l_top l_lev] in E2.
          - destruct (used e _); [discriminate|]. injection E2 as <- <- <-. destruct T as [<-|T]; [right; now left|now left].
          - destruct (used e _); [discriminate|]. destruct (take_all cs f1) as [[ts fr1]|] eqn:TA; [|discriminate].
            destruct (take_all_spec _ _ _ _ TA) as [TE TP].
            assert (Z : exists us, Permutation us ts /\ fr = (if k then Region e us else Plain e us) :: fr1 /\ tp = t1).
            { destruct k.
              - destruct (emplace_all l1 ts []) as [us|] eqn:EA; [|discriminate]. injection E2 as <- <- <-. exists us. split; [|now split].
                destruct (emplace_all_spec _ _ _ _ EA) as [PP _]; [|rewrite app_nil_r in PP; now symmetry].
                rewrite app_nil_r. apply nodup_roots. pose proof (i_nodup _ _ I1) as N. unfold forest in N. cbn [l_free l_top] in N.
                rewrite flat_map_app in N. apply nodup_app_l in N. eapply Permutation_NoDup in N; [|apply perm_flat; exact TP].
                rewrite flat_map_app in N. now apply nodup_app_l in N.
              - injection E2 as <- <- <-. exists ts. split; [reflexivity|now split]. }
            destruct Z as (us & PU & -> & ->). unfold parts, forest in T. cbn [l_free l_top app flat_map] in T. rewrite subs_eq in T.
            destruct T as [<-|T]; [right; right; exists k, cs; destruct k; reflexivity|left].
            replace (kids (if k then Region e us else Plain e us)) with us in T by (destruct k; reflexivity). cbn [app] in T. rewrite <- flat_map_app in T.
            eapply Permutation_in; [|exact T]. apply perm_flat. unfold forest. cbn [l_free l_top]. rewrite app_assoc. apply Permutation_app_tail.
            rewrite TP. now apply Permutation_app_tail.
          - destruct (used e _); [|discriminate]. injection E2 as <- <- <-. now left.
          - destruct (take e f1) as [[u f2]|] eqn:TK; [|discriminate]. destruct (take_spec _ _ _ _ TK) as [TE TP].
            unfold emplace in E2. destruct (in_order l1 t1); [|discriminate]. injection E2 as <- <- <-. left.
            assert (NT : ~ In (eid u) (map eid t1)).
            { pose proof (i_nodup _ _ I1) as N. apply nodup_roots in N. unfold forest in N. cbn [l_free l_top] in N.
              eapply Permutation_NoDup in N; [|apply Permutation_map, Permutation_app_tail; exact TP]. cbn in N. inversion N as [|? ? N1 N2]; subst.
              intro H. apply N1. rewrite map_app. apply in_or_app; now right. }
            eapply Permutation_in; [|exact T]. apply perm_flat. unfold forest. cbn [l_free l_top]. rewrite TP.
            rewrite <- (place_perm l1 u t1 NT). cbn [app]. symmetry. apply Permutation_middle. }
        destruct W as [W|[->|(k & cs & ->)]].
        + destruct s1 as [f1 t1 l1]. destruct (IH t _ _ _ eq_refl W) as [H|(k & cs & H)]; [left|right; exists k, cs]; apply in_or_app; now left.
        + left. apply in_or_app; right; now left.
        + right. exists k, cs. apply in_or_app; right; now left. }
    destruct U as (t & ET & T). destruct (G _ _ _ _ _ I R T) as [H|(k & cs & H)]; rewrite ET in H; unfold usual, set_levels in H; rewrite !in_app_iff, !in_map_iff in H.
    - destruct H as [(n & E & H)|[(n & E & H)|(n & E & H)]]; try discriminate. injection E as ->. now apply NE.
    - destruct H as [(n & E & H)|[(n & E & H)|(n & E & H)]]; discriminate. }
  cbn [lrun lstep]. rewrite U. cbn [l_free l_top l_lev take eid]. rewrite Nat.eqb_refl. unfold emplace.
  destruct (in_order lv tp) eqn:O; [|reflexivity]. exfalso. apply in_order_sorted in O.
  assert (B : before tp (Node x) (Node y)).
  { apply (sorted_lt _ _ _ (fun _ => 0%Z)); [exact S|now apply M|now apply M|]. unfold less. cbn. now apply Nat.ltb_lt. }
  assert (B2 : less lv x y = true).
  { destruct B as (a & b & c & ->). clear - O. induction a as [|u a IH]; [|destruct O as [_ O]; now apply IH].
    destruct O as [O _]. apply (O (Node y)). apply in_or_app. right. now left. }
  apply less_spec in B2. pose proof (i_lev _ _ I x) as EX. pose proof (i_lev _ _ I y) as EY. cbn [l_lev] in EX, EY. lia.
Qed.
Print Assumptions C101_later_refuted.
Definition later_demo : list lop := usual [1; 2] [(1, 1%Z)].
Example C101_later_nonvacuous :
  lrun l_start (later_demo ++ [LNode 3; LRegister 3]) = LUndef /\ (level_of later_demo 2 < level_of later_demo 1)%Z.
Proof. vm_compute. now split. Qed.

(** And in a cluster, condition or some the levels play no part, even when set in time: the order is that of the elements
    given. *)
Theorem C101_group_refuted : forall g cs zs, NoDup (g :: cs) -> (forall e z, In (e, z) zs -> In e cs) ->
  let prog := map LNode cs ++ set_levels zs ++ [LGroup false g cs; LRegister g] in
  exists s, lrun l_start prog = LDone s /\ in_time prog /\
  forall x y ask p p' v d, before cs x y -> c_elems (pp_cfg p) = l_top s -> pipe_init ask p = (p', Val v) -> (0 <= code v)%Z -> pp_log p' = pp_log p ++ d ->
    before (map fst d) (KInit x) (KInit y).
Proof.
  intros g cs zs N A prog. inversion N as [|? ? N1 N2]; subst. unfold prog. rewrite lrun_app. unfold l_start. rewrite make_nodes by (cbn; now rewrite app_nil_r).
  rewrite app_nil_r, lrun_app. destruct (levels_only zs (rev (map Node cs)) [] (fun _ => 0%Z)) as (lv & E).
  { intros e z H. rewrite app_nil_r, flat_map_concat_map. apply A in H. apply in_concat. exists [e]. split; [|now left].
    apply in_map_iff. exists (Node e). split; [reflexivity|]. apply in_rev. rewrite rev_involutive. now apply in_map. }
  rewrite E. cbn [lrun lstep]. assert (U : used g (mkL (rev (map Node cs)) [] lv) = false).
  { destruct (used g _) eqn:U; [|reflexivity]. apply used_spec in U. unfold forest in U. cbn [l_free l_top] in U. rewrite app_nil_r in U.
    apply in_flat_map in U. destruct U as (t & T & H). apply in_rev in T. apply in_map_iff in T. destruct T as (n & <- & T). destruct H as [->|[]]. easy. }
  rewrite U. cbn [l_free l_top l_lev].
  assert (TK : forall es l, NoDup es -> (forall e, In e es -> In (Node e) l) -> node_only l -> NoDup (map eid l) -> exists r, take_all es l = Some (map Node es, r)).
  { clear. induction es as [|e es IH]; intros l N A NO ND; [eexists; reflexivity|]. cbn [take_all map].
    destruct (take_in e l) as (t & r & T); [apply (in_map eid l (Node e)), A; now left|]. rewrite T. destruct (take_spec _ _ _ _ T) as [TE TP].
    pose proof (node_perm _ _ TP NO) as NO'. inversion NO' as [|? ? X NO2]; subst. inversion N as [|? ? N1 N2]; subst.
    eapply Permutation_NoDup in ND; [|apply Permutation_map; exact TP]. cbn in ND. inversion ND as [|? ? D1 D2]; subst.
    destruct (IH r N2) as (r' & E); [|exact NO2|exact D2|].
    - intros c C. assert (H : In (Node c) (t :: r)) by (eapply Permutation_in; [exact TP|]; apply A; now right).
      destruct H as [H|H]; [|exact H]. subst t. now destruct N1.
    - rewrite E. exists r'. now rewrite <- X. }
  destruct (TK cs (rev (map Node cs))) as (r & T).
  - exact N2.
  - intros e C. apply in_rev. rewrite rev_involutive. now apply in_map.
  - apply Forall_forall. intros t T. apply in_rev in T. apply in_map_iff in T. destruct T as (n & <- & _). reflexivity.
  - rewrite map_rev, map_map. cbn. rewrite map_id. now apply NoDup_rev.
  - rewrite T. cbn [l_free l_top l_lev take eid]. rewrite Nat.eqb_refl. unfold emplace. cbn [in_order place]. eexists. split; [reflexivity|]. split.
    + intros a e z b EQ. assert (H : ~ In (LRegister e) a /\ forall k h l, ~ In (LGroup k h l) a).
      { assert (PRE : exists q, map LNode cs ++ set_levels zs = a ++ LLevel e z :: q).
        { rewrite app_assoc in EQ. revert EQ. generalize (map LNode cs ++ set_levels zs) as w. intros w EQ. revert w EQ.
          induction a as [|o a IH]; intros [|o' w] EQ; cbn in EQ; try discriminate.
          - injection EQ as -> EQ. now exists w.
          - destruct a as [|? [|? a]]; cbn in EQ; discriminate.
          - injection EQ as -> EQ. destruct (IH w EQ) as (q & ->). now exists q. }
        destruct PRE as (q & PRE). assert (F : forall o, In o a -> (exists n, o = LNode n) \/ exists n z, o = LLevel n z).
        { intros o O. assert (H : In o (map LNode cs ++ set_levels zs)) by (rewrite PRE; apply in_or_app; now left).
          apply in_app_iff in H. destruct H as [H|H]; apply in_map_iff in H; destruct H as (n & <- & _); [left|right]; eauto. }
        split; [intro H|intros k h l H]; destruct (F _ H) as [(n & X)|(n & w & X)]; discriminate. }
      split; [apply H|]. intros h l H'. exfalso. now apply (proj2 H) in H'.
    + intros x y ask p p' v d B C EP V LG. rewrite (init_log _ _ _ _ _ EP V LG). apply in_init. rewrite C. cbn [l_top flat_map life_calls]. rewrite app_nil_r.
      destruct B as (l1 & l2 & l3 & ->). exists (map KInit l1), (map KInit l2), (map KInit l3).
      assert (FM : forall l, flat_map (life_calls true) (map Node l) = map KInit l) by (induction l as [|n l IHl]; [reflexivity|cbn; now rewrite IHl]).
      rewrite FM, map_app. cbn [map]. now rewrite map_app.
Qed.
Print Assumptions C101_group_refuted.
Example C101_group_nonvacuous : let prog := map LNode [1; 2] ++ set_levels [(1, 9%Z)] ++ [LGroup false 5 [1; 2]; LRegister 5] in
  (level_of prog 2 < level_of prog 1)%Z /\ exists s, lrun l_start prog = LDone s /\ l_top s = [Plain 5 [Node 1; Node 2]].
Proof. split; [vm_compute; reflexivity|]. eexists. split; [vm_compute; reflexivity|reflexivity]. Qed.
