(** C11-C13: trim, maximal parallelism, separation. *)
From Verif Require Import GraphModel GraphSpec DepProofs TopoProofs EngineSeqProofs StaticProofs GraphProps DynModel DynInv DynProofs DynProps OptModel OptProofs TrimProofs.
From Coq Require Import Lia.
Local Open Scope nat_scope.

(** * C11: trim *)
(** A tree of elements (regions contain elements) as trim() meets it: no element twice, nothing initialised yet, every
    level closed under dependencies and acyclic. *)
Definition trimmable (st : gst) (l : list rnode) : Prop :=
  edges_ok st /\ NoDup (all_ids l) /\ (forall x, In x (all_ids l) -> e_init (st x) = false) /\
  (forall lv, In lv (all_levels l) -> wf (graph_of st (map root lv)) /\ acyclic (graph_of st (map root lv))).

Theorem C11_trim : forall st l, trimmable st l -> exists st' num, trim st l = Some (st', num) /\
  (forall lv, In lv (all_levels l) ->
     let g := graph_of st (map root lv) in let g' := graph_of st' (map root lv) in
     (* reachability within the level is unchanged *)
     (forall x y, path g' x y <-> path g x y) /\
     (* only existing dependencies implied by others are removed *)
     (forall d e, edge g' d e -> edge g d e) /\
     (forall d e, edge g d e -> ~ edge g' d e -> exists x, path g d x /\ path g x e) /\
     (* nothing implied by others is left *)
     (forall d e, edge g' d e -> forall x, path g' d x -> path g' x e -> False) /\
     wf g' /\ acyclic g') /\
  (* the number returned is the number of dependencies removed *)
  num + sumf (fun x => length (e_dep (st' x))) (all_ids l) = sumf (fun x => length (e_dep (st x))) (all_ids l) /\
  (* nothing else changes *)
  (forall x, ~ In x (all_ids l) -> e_dep (st' x) = e_dep (st x)) /\
  (forall x, e_init (st' x) = e_init (st x) /\ e_belong (st' x) = e_belong (st x)) /\
  edges_ok st'.
Proof.
  intros st l [Hok [Hnd [Hi Hlv]]]. destruct (trim_lemma st l Hok Hnd Hi Hlv) as [st' [num [E [Hok' [Hk [Hout [Hf [Hsub Hc]]]]]]]].
  exists st', num. split; [exact E|]. split; [|auto].
  intros lv Hin g g'. destruct (Hlv lv Hin) as [Hwf Ha]. fold g in Hwf, Ha.
  assert (R : reduced g g').
  { split; [reflexivity|]. intros e d He. apply (Hk lv Hin e d He). }
  pose proof (reduced_path g g' Hwf Ha R) as HP.
  split; [exact HP|]. split; [|split; [|split; [|split]]].
  - intros d e [H1 H2]. split; [exact H1|]. apply Hsub. exact H2.
  - apply (reduced_only_implied g g' Hwf Ha R).
  - intros d e Hde x P1 P2. apply HP in P1, P2. apply (reduced_minimal g g' R d e Hde x P1 P2).
  - apply wf_of_state; [exact Hok'|apply Hwf|]. intros e He. destruct (wf_dep _ Hwf e He) as [_ W1]. destruct (wf_succ _ Hwf e He) as [_ W2]. simpl in W1, W2. split.
    + intros x Hx. apply W1. apply Hsub. exact Hx.
    + intros x Hx. apply W2. apply Hok. apply Hsub. apply Hok'. exact Hx.
  - intros e He. apply HP in He. apply (Ha e He).
Qed.
Print Assumptions C11_trim.

(** Trimming twice removes nothing more. *)
Theorem C11_idempotent : forall st l st' num, trimmable st l -> trim st l = Some (st', num) ->
  exists st'', trim st' l = Some (st'', 0) /\ forall lv x y, In lv (all_levels l) -> (edge (graph_of st'' (map root lv)) x y <-> edge (graph_of st' (map root lv)) x y).
Proof.
  intros st l st' num T E. destruct (C11_trim st l T) as [s1 [n1 [E1 [HL [_ [_ [Hf Hok1]]]]]]]. rewrite E in E1. inversion E1; subst s1 n1. clear E1.
  assert (T' : trimmable st' l).
  { destruct T as [_ [Hnd [Hi _]]]. split; [exact Hok1|]. split; [exact Hnd|]. split; [intros x Hx; rewrite (proj1 (Hf x)); apply Hi, Hx|]. intros lv Hin. destruct (HL lv Hin) as [_ [_ [_ [_ [H1 H2]]]]]. auto. }
  destruct (trim_lemma st' l) as [s2 [n2 [E2 [Hok2 [Hk [Hout [Hf2 [Hsub Hc]]]]]]]]; try apply T'.
  assert (Hsame : forall x y, In x (all_ids l) -> In y (e_dep (s2 x)) <-> In y (e_dep (st' x))).
  { intros x y Hx. split; [apply Hsub|]. intros Hy.
    assert (X : exists lv, In lv (all_levels l) /\ In x (rids lv)).
    { clear - Hx. unfold all_ids in Hx. apply in_flat_map in Hx. destruct Hx as [n [Hn Hx]].
      assert (Y : forall n x, In x (ids n) -> x = root n \/ exists lv, In lv (levels n) /\ In x (rids lv)).
      { clear. apply (rnode_rect' (fun n => forall x, In x (ids n) -> x = root n \/ exists lv, In lv (levels n) /\ In x (rids lv))).
        intros e s IH x [<-|Hx]; [left; reflexivity|right]. apply in_flat_map in Hx. destruct Hx as [m [Hm Hx]]. destruct (IH m Hm x Hx) as [->|[lv [H1 H2]]].
        - exists s. split; [left; reflexivity|apply in_map; exact Hm].
        - exists lv. split; [right; apply in_flat_map; exists m; auto|exact H2]. }
      destruct (Y n x Hx) as [->|[lv [H1 H2]]]; [exists l; split; [left; reflexivity|apply in_map; exact Hn]|].
      exists lv. split; [right; apply in_flat_map; exists n; auto|exact H2]. }
    destruct X as [lv [Hin Hxl]]. apply (Hk lv Hin x y Hxl). split; [exact Hy|]. intros [y' [Hy' Hp]].
    destruct (HL lv Hin) as [_ [_ [_ [Hmin _]]]]. apply (Hmin y x (conj Hxl Hy) y' Hp). apply t_step. split; assumption. }
  assert (Hlen : forall x, In x (all_ids l) -> length (e_dep (s2 x)) = length (e_dep (st' x))).
  { intros x Hx. apply Permutation_length, NoDup_Permutation; [apply Hok2|apply Hok1|intros y; apply Hsame, Hx]. }
  assert (Hz : n2 = 0). { unfold deps_total in Hc. rewrite (sumf_ext _ (fun x => length (e_dep (st' x))) (all_ids l)) in Hc by exact Hlen. lia. }
  subst n2. exists s2. split; [exact E2|]. intros lv x y Hin. unfold edge. cbn [graph_of els dep].
  assert (Hid : In y (map root lv) -> In y (all_ids l)).
  { intros Hy. destruct Hin as [<-|Hin]; [|apply (levels_rid_ids l lv y Hin Hy)]. apply in_map_iff in Hy. destruct Hy as [n [<- Hn]]. apply in_flat_map. exists n. split; [exact Hn|apply root_in_ids]. }
  split; intros [H1 H2]; (split; [exact H1|]); apply (Hsame y x (Hid H1)); exact H2.
Qed.
Print Assumptions C11_idempotent.

(** Non-vacuity: 0 -> 1 -> 2 with the implied 0 -> 2, and a region 3 holding 4 -> 5 -> 6 with 4 -> 6. *)
Definition trim_h : list dep_op :=
  [OGroup 4 3 false; OGroup 5 3 false; OGroup 6 3 false; OAdd 1 [Some 0]; OAdd 2 [Some 0; Some 1]; OAdd 3 [Some 2; Some 0]; OAdd 5 [Some 4]; OAdd 6 [Some 5; Some 4]].
Definition trim_st : gst := dep_run blank trim_h.
Definition trim_tree : list rnode := [RN 0 []; RN 1 []; RN 2 []; RN 3 [RN 4 []; RN 5 []; RN 6 []]].
Example C11_nonvacuous : trimmable trim_st trim_tree /\
  match trim trim_st trim_tree with
  | Some (st', n) => n = 3 /\ e_dep (st' 2) = [1] /\ e_dep (st' 3) = [2] /\ e_dep (st' 6) = [5] /\ e_succ (st' 4) = [5]
  | None => False
  end.
Proof.
  split; [|vm_compute; auto].
  assert (Hok : edges_ok trim_st) by (apply dep_run_edges_ok, no_edges_ok; intros e; split; reflexivity).
  split; [exact Hok|]. split; [repeat constructor; simpl; intuition discriminate|]. split; [intros x Hx; vm_compute in Hx; repeat (destruct Hx as [<-|Hx]; [vm_compute; reflexivity|]); contradiction|].
  assert (W : forall lv, In lv (all_levels trim_tree) -> wf (graph_of trim_st (map root lv)) /\ isDag (graph_of trim_st (map root lv)) = Some true).
  { intros lv Hl. cbv [all_levels trim_tree flat_map levels app] in Hl.
    repeat (destruct Hl as [<-|Hl];
      [split; [|vm_compute; reflexivity]; apply wf_of_state; [exact Hok|cbn [map root]; repeat constructor; simpl; intuition discriminate|];
       intros e He; cbn [map root] in He; repeat (destruct He as [<-|He]; [split; vm_compute; intros x Hx; intuition|]); contradiction|]).
    contradiction. }
  intros lv Hl. destruct (W lv Hl) as [W1 W2]. split; [exact W1|]. apply acyclic_by_check; assumption.
Qed.

(** * C12: maximal parallelism *)
(** antichain g A: A lists distinct elements of the set, no two connected by a dependency path. *)
Theorem C12_max_para : forall g is_group, wf g -> acyclic g ->
  ((forall e, In e (els g) -> is_group e = false) -> exists n, calc_max_para g is_group = Some (Some n) /\
     (exists A, antichain g A /\ length A = n) /\ (forall A, antichain g A -> length A <= n)) /\
  ((exists e, In e (els g) /\ is_group e = true) -> calc_max_para g is_group = Some None).
Proof.
  intros g ig Hwf Ha. unfold calc_max_para. split; intros H.
  - destruct (existsb ig (els g)) eqn:E; [apply existsb_exists in E; destruct E as [e [He Hg]]; rewrite (H e He) in Hg; discriminate|].
    destruct (max_para_lemma g Hwf Ha) as [n [-> X]]. exists n. split; [reflexivity|exact X].
  - destruct H as [e He]. assert (X : existsb ig (els g) = true) by (apply existsb_exists; exists e; exact He). rewrite X. reflexivity.
Qed.
Print Assumptions C12_max_para.

Example C12_nonvacuous : wf diamond /\ acyclic diamond /\ calc_max_para diamond (fun _ => false) = Some (Some 2) /\ calc_max_para diamond (Nat.eqb 2) = Some None.
Proof. split; [exact diamond_wf|]. split; [exact diamond_acyclic|]. split; vm_compute; reflexivity. Qed.

(** * C13: separation *)
Theorem C13_check_separate : forall g a b, wf g -> acyclic g -> In a (els g) -> In b (els g) -> a <> b ->
  exists r, check_separate g a b = Some r /\ check_separate g b a = Some r /\ (r = true <-> path g a b \/ path g b a).
Proof.
  intros g a b Hwf Ha Hae Hbe Hab. destruct (check_separate_lemma g a b Hwf Ha Hae Hbe Hab) as [r [E Hr]]. exists r. split; [exact E|]. split; [|exact Hr].
  rewrite <- E. unfold check_separate. destruct (collect_paths g) as [ps|]; [|reflexivity]. f_equal. induction ps as [|p ps IH]; simpl; [reflexivity|]. rewrite IH. f_equal. apply Bool.andb_comm.
Qed.
Print Assumptions C13_check_separate.

(** [running tr e]: started and not yet finished. *)
Definition running (tr : list gevent) (e : nat) : Prop := In (GStart e) tr /\ forall r, ~ In (GFinish e r) tr.
Theorem C13_separate_never_concurrent : forall c ls s a b, wf (c_g c) -> acyclic (c_g c) -> In a (els (c_g c)) -> In b (els (c_g c)) -> a <> b ->
  check_separate (c_g c) a b = Some true -> exec c ls s -> ~ (running (trace s) a /\ running (trace s) b).
Proof.
  intros c ls s a b Hwf Ha Hae Hbe Hab E H [[Sa Na] [Sb Nb]].
  destruct (check_separate_lemma _ a b Hwf Ha Hae Hbe Hab) as [r [E' Hr]]. rewrite E in E'. inversion E'; subst r.
  destruct (C06_starts_after_deps c ls s Hwf Ha H) as [Hd _]. pose proof (exec_inv c ls s Hwf Ha H) as I.
  assert (Hfs : forall d v, In (GFinish d v) (trace s) -> In (GStart d) (trace s)).
  { intros d v Hf. destruct (inv_trace c s I) as [T|R]; [rewrite T in Hf; contradiction|].
    apply in_starts, cnt_in. pose proof (r_body c _ _ R d).
    assert (0 < cnt d (map fst (finishes (trace s)))) by (apply cnt_in, in_map_iff; exists (d, v); split; [reflexivity|apply in_finishes; exact Hf]).
    unfold trace in *. lia. }
  destruct (proj1 Hr eq_refl) as [P|P].
  - destruct (path_finished _ _ a b Hd Hfs P Sb) as [v [X _]]. apply (Na v X).
  - destruct (path_finished _ _ b a Hd Hfs P Sa) as [v [X _]]. apply (Nb v X).
Qed.
Print Assumptions C13_separate_never_concurrent.

(** ** Nested elements *)
(** [within v a x]: [a] is [x] or lies, at any depth, inside the group [x]. *)
Definition within (v : tree_env) : nat -> nat -> Prop := clos_refl_trans nat (fun c p => t_belong v c = Some p).

Section Nest.
Variable v : tree_env.
Let B := t_belong v.
Lemma deep_path_mono f f' e l l' : deep_path f B e = Some l -> deep_path f' B e = Some l' -> l = l'.
Proof.
  revert f' e l l'. induction f as [|f IH]; intros [|f'] e l l' H H'; try discriminate. cbn [deep_path] in *.
  destruct (B e) as [p|]; [|congruence]. destruct (deep_path f B p) as [q|] eqn:E; [|discriminate]. destruct (deep_path f' B p) as [q'|] eqn:E'; [|discriminate].
  rewrite (IH _ _ _ _ E E') in H. congruence.
Qed.
Lemma deep_path_last f e l : deep_path f B e = Some l -> exists q, l = q ++ [e].
Proof. destruct f; [discriminate|]. cbn [deep_path]. destruct (B e) as [p|]; [destruct (deep_path f B p)|]; intros H; inversion H; [eexists; reflexivity|exists []; reflexivity]. Qed.
Lemma deep_path_prefix : forall f e l l1 x l2, deep_path f B e = Some l -> l = l1 ++ x :: l2 -> exists f', deep_path f' B x = Some (l1 ++ [x]).
Proof.
  induction f as [|f IH]; intros e l l1 x l2 H E; [discriminate|]. pose proof H as H0. cbn [deep_path] in H. destruct (B e) as [p|] eqn:Eb.
  - destruct (deep_path f B p) as [q|] eqn:Ep; [|discriminate]. inversion H; subst l.
    destruct (list_eq_dec Nat.eq_dec l2 []) as [->|Hne].
    + apply app_inj_tail in H2. destruct H2 as [-> ->]. exists (S f). exact H0.
    + destruct (exists_last Hne) as [l3 [y ->]]. rewrite app_comm_cons, app_assoc in H2. apply app_inj_tail in H2. destruct H2 as [E _]. apply (IH p q l1 x l3 Ep E).
  - inversion H; subst l. destruct l1 as [|? [|]]; inversion H2; subst. exists (S f). exact H0.
Qed.
Lemma deep_path_nodup f e l : deep_path f B e = Some l -> NoDup l.
Proof.
  intros H. assert (X : forall l1 l2, l = l1 ++ l2 -> NoDup l1).
  { intros l1. induction l1 as [|x l1 IH] using rev_ind; intros l2 E; [constructor|]. rewrite <- app_assoc in E. apply NoDup_app_iff. split; [apply (IH _ E)|]. split; [constructor; [intros []|constructor]|].
    intros z Hz [<-|[]]. apply in_split in Hz. destruct Hz as [a [b ->]].
    destruct (deep_path_prefix f e l _ _ _ H E) as [f1 E1].
    assert (E' : l = a ++ x :: (b ++ [x] ++ l2)) by (rewrite E, <- app_assoc; reflexivity).
    destruct (deep_path_prefix f e l _ _ _ H E') as [f2 E2]. pose proof (deep_path_mono _ _ _ _ _ E1 E2) as Heq. apply (f_equal (@length nat)) in Heq. rewrite !app_length in Heq. simpl in Heq. lia. }
  apply (X l []). symmetry. apply app_nil_r.
Qed.
Lemma deep_path_belong f e l l1 x l2 : deep_path f B e = Some l -> l = l1 ++ x :: l2 -> B x = match rev l1 with [] => None | p :: _ => Some p end.
Proof.
  intros H E. destruct (deep_path_prefix f e l l1 x l2 H E) as [[|f1] E1]; [discriminate|]. cbn [deep_path] in E1. destruct (B x) as [p|].
  - destruct (deep_path f1 B p) as [q|] eqn:Ep; [|discriminate]. inversion E1 as [E2]. apply app_inj_tail in E2. destruct E2 as [-> _].
    destruct (deep_path_last _ _ _ Ep) as [q' ->]. rewrite rev_app_distr. reflexivity.
  - inversion E1 as [E2]. destruct l1 as [|? [|]]; inversion E2; reflexivity.
Qed.
Lemma deep_path_within f e l l1 x l2 : deep_path f B e = Some l -> l = l1 ++ x :: l2 -> within v e x.
Proof.
  intros H. revert l1 x. induction l2 as [|y l2 IH]; intros l1 x E.
  - destruct (deep_path_last _ _ _ H) as [q Eq]. rewrite E in Eq. apply app_inj_tail in Eq. destruct Eq as [_ ->]. apply rt_refl.
  - eapply rt_trans; [apply (IH (l1 ++ [x]) y); rewrite <- app_assoc; exact E|]. apply rt_step.
    pose proof (deep_path_belong f e l (l1 ++ [x]) y l2 H) as Hb. rewrite rev_app_distr in Hb. apply Hb. rewrite <- app_assoc. exact E.
Qed.

Lemma common_split : forall p q : list nat, exists c r s, p = c ++ r /\ q = c ++ s /\
  (r = [] \/ s = [] \/ exists x y r' s', r = x :: r' /\ s = y :: s' /\ x <> y).
Proof.
  induction p as [|x p IH]; intros q; [exists [], [], q; auto|]. destruct q as [|y q]; [exists [], (x :: p), []; auto|].
  destruct (Nat.eq_dec x y) as [<-|Hne].
  - destruct (IH q) as [c [r [s [-> [-> H]]]]]. exists (x :: c), r, s. auto.
  - exists [], (x :: p), (y :: q). split; [reflexivity|]. split; [reflexivity|]. right; right. exists x, y, p, q. auto.
Qed.
Definition last_opt (c : list nat) (acc : option nat) : option nat := match rev c with [] => acc | x :: _ => Some x end.
Lemma last_common_split : forall c r s acc, (r = [] \/ s = [] \/ exists x y r' s', r = x :: r' /\ s = y :: s' /\ x <> y) ->
  last_common (c ++ r) (c ++ s) acc = last_opt c acc.
Proof.
  induction c as [|z c IH]; intros r s acc H; cbn [app last_common].
  - unfold last_opt; simpl. destruct H as [->|[->|[x [y [r' [s' [-> [-> H]]]]]]]]; [reflexivity|destruct r; reflexivity|]. cbn [last_common]. destruct (Nat.eqb_spec x y); [contradiction|reflexivity].
  - rewrite Nat.eqb_refl, IH by exact H. unfold last_opt. simpl rev. destruct (rev c) as [|w l]; reflexivity.
Qed.
Lemma patch_skip anc : forall l rest acc, (forall z, In z l -> oeqb anc z = false) ->
  patch_loop (l ++ rest) anc acc = patch_loop rest anc (last_opt l acc).
Proof.
  induction l as [|z l IH]; intros rest acc H; [reflexivity|]. cbn [app patch_loop]. rewrite (H z (or_introl eq_refl)). rewrite IH by (intros; apply H; right; assumption).
  unfold last_opt. simpl rev. destruct (rev l); reflexivity.
Qed.
Lemma patch_of e c x r' : NoDup (c ++ x :: r') -> (exists q, c ++ x :: r' = q ++ [e]) -> oeqb (last_opt c None) e = false /\ get_patch (c ++ x :: r') (last_opt c None) e = Some x.
Proof.
  intros Hnd [q Hq]. set (anc := last_opt c None).
  assert (Hanc : forall z, In z (x :: r') -> oeqb anc z = false).
  { intros z Hz. unfold anc, last_opt. destruct (rev c) as [|w l] eqn:Er; [reflexivity|]. simpl. apply Nat.eqb_neq. intros ->.
    apply NoDup_app_iff in Hnd. destruct Hnd as [_ [_ Hdis]]. apply (Hdis z); [apply in_rev; rewrite Er; left; reflexivity|exact Hz]. }
  assert (He : In e (x :: r')).
  { destruct (exists_last (l := x :: r')) as [l [y E]]; [discriminate|]. rewrite E in Hq. rewrite app_assoc in Hq. apply app_inj_tail in Hq. destruct Hq as [_ <-]. rewrite E. apply in_or_app; right; left; reflexivity. }
  split; [apply Hanc, He|]. unfold get_patch. rewrite (Hanc e He). rewrite rev_app_distr. rewrite patch_skip by (intros z Hz; apply Hanc, in_rev; exact Hz).
  assert (El : last_opt (rev (x :: r')) None = Some x) by (unfold last_opt; rewrite rev_involutive; reflexivity).
  rewrite El. unfold anc, last_opt. destruct (rev c) as [|w l]; [reflexivity|]. cbn [patch_loop oeqb]. rewrite Nat.eqb_refl. reflexivity.
Qed.
End Nest.

(** For two different registered elements at any depth: if one lies within the other the answer is yes. Otherwise there
    are two different elements [x] and [y] of one level, holding one argument each, and the answer is that of their common
    parent: the pipeline (or a region) looks for a dependency path between them, clusters, conditions and serial
    multi-conditions say yes, the other groups say no. *)
Definition level_answer (v : tree_env) (x y : nat) : option bool :=
  match t_belong v x with
  | None => check_separate (t_top v) x y
  | Some p => match t_kind v p with Some k => is_separate k (t_inner v p) x y | None => None end
  end.
Theorem C13_pipeline_nesting : forall v a b pa pb,
  t_registered v a = true -> t_registered v b = true -> a <> b ->
  deep_path (t_depth v) (t_belong v) a = Some pa -> deep_path (t_depth v) (t_belong v) b = Some pb ->
  ((within v a b \/ within v b a) /\ pipeline_check_separate v a b = SepAnswer true) \/
  (exists x y, x <> y /\ within v a x /\ within v b y /\ t_belong v x = t_belong v y /\
     forall r, level_answer v x y = Some r -> pipeline_check_separate v a b = SepAnswer r).
Proof.
  intros v a b pa pb Ra Rb Hab Ea Eb. unfold pipeline_check_separate. rewrite Ra, Rb, Ea, Eb. destruct (Nat.eqb_spec a b); [contradiction|]. cbn [orb negb].
  destruct (common_split pa pb) as [c [r [s [Epa [Epb H]]]]]. pose proof (last_common_split c r s None H) as HL. rewrite <- Epa, <- Epb in HL. rewrite HL.
  destruct (deep_path_last v _ _ _ Ea) as [qa Hqa]. destruct (deep_path_last v _ _ _ Eb) as [qb Hqb].
  destruct H as [->|[->|[x [y [r' [s' [-> [-> Hxy]]]]]]]].
  - left. rewrite app_nil_r in Epa. assert (La : last_opt c None = Some a) by (unfold last_opt; rewrite <- Epa, Hqa, rev_app_distr; reflexivity).
    rewrite La. cbn [oeqb]. rewrite Nat.eqb_refl. split; [|reflexivity]. right. apply (deep_path_within v _ _ _ qa a s Eb). rewrite Epb, <- Epa, Hqa, <- app_assoc. reflexivity.
  - left. rewrite app_nil_r in Epb. assert (Lb : last_opt c None = Some b) by (unfold last_opt; rewrite <- Epb, Hqb, rev_app_distr; reflexivity).
    rewrite Lb. cbn [oeqb]. rewrite Nat.eqb_refl, Bool.orb_true_r. split; [|reflexivity]. left. apply (deep_path_within v _ _ _ qb b r Ea). rewrite Epa, <- Epb, Hqb, <- app_assoc. reflexivity.
  - right. exists x, y. split; [exact Hxy|]. split; [apply (deep_path_within v _ _ _ c x r' Ea Epa)|]. split; [apply (deep_path_within v _ _ _ c y s' Eb Epb)|].
    pose proof (deep_path_belong v _ _ _ c x r' Ea Epa) as Bx. pose proof (deep_path_belong v _ _ _ c y s' Eb Epb) as By. cbn zeta in Bx, By.
    split; [congruence|]. intros ans Hans.
    assert (Na : NoDup (c ++ x :: r')) by (rewrite <- Epa; apply (deep_path_nodup v _ _ _ Ea)). assert (Nb : NoDup (c ++ y :: s')) by (rewrite <- Epb; apply (deep_path_nodup v _ _ _ Eb)).
    destruct (patch_of a c x r' Na) as [P1 P2]; [exists qa; congruence|]. destruct (patch_of b c y s' Nb) as [P3 P4]; [exists qb; congruence|].
    rewrite Epa, Epb. rewrite P1, P2, P3, P4. cbn [orb]. unfold level_answer in Hans. rewrite Bx in Hans. unfold last_opt. destruct (rev c) as [|p l].
    + rewrite Hans. reflexivity.
    + destruct (t_kind v p) as [k|] eqn:Ek; [rewrite Hans; reflexivity|discriminate].
Qed.
Print Assumptions C13_pipeline_nesting.

(** The answer always exists when the levels are acyclic, and tells exactly which dependency it rests on. *)
Theorem C13_level_answer : forall v x y, x <> y -> t_belong v x = t_belong v y ->
  match t_belong v x with
  | None => wf (t_top v) -> acyclic (t_top v) -> In x (els (t_top v)) -> In y (els (t_top v)) ->
      exists r, level_answer v x y = Some r /\ level_answer v y x = Some r /\ (r = true <-> path (t_top v) x y \/ path (t_top v) y x)
  | Some p => match t_kind v p with
      | Some KRegion => wf (t_inner v p) -> acyclic (t_inner v p) -> In x (els (t_inner v p)) -> In y (els (t_inner v p)) ->
          exists r, level_answer v x y = Some r /\ level_answer v y x = Some r /\ (r = true <-> path (t_inner v p) x y \/ path (t_inner v p) y x)
      | Some KCluster | Some KCondition | Some KMultiSerial => level_answer v x y = Some true
      | Some KMultiParallel | Some KSome | Some KMutable => level_answer v x y = Some false
      | None => level_answer v x y = None
      end
  end.
Proof.
  intros v x y Hxy Hb. unfold level_answer. rewrite <- Hb. destruct (t_belong v x) as [p|].
  - destruct (t_kind v p) as [[]|]; try reflexivity. intros Hwf Ha Hx Hy. apply C13_check_separate; assumption.
  - intros Hwf Ha Hx Hy. apply C13_check_separate; assumption.
Qed.
Print Assumptions C13_level_answer.

(** Non-vacuity: the diamond 0 -> {1, 2} -> 3, where 2 is a cluster holding 5 and 6. *)
Definition sep_env : tree_env :=
  mkEnv (fun e => Nat.ltb e 7) (fun e => if Nat.ltb 4 e then Some 2 else None) (fun e => if Nat.eqb e 2 then Some KCluster else None) (fun _ => graph_of blank []) diamond 5.
(** An element is not separate from itself, and nothing is said of elements that the pipeline does not have. *)
Theorem C13_unknown : forall v a b, a = b \/ t_registered v a = false \/ t_registered v b = false -> pipeline_check_separate v a b = SepAnswer false.
Proof.
  intros v a b H. unfold pipeline_check_separate. destruct H as [->|[H|H]]; [now rewrite Nat.eqb_refl| |]; rewrite H; cbn [negb]; now rewrite ?Bool.orb_true_r.
Qed.
Print Assumptions C13_unknown.
Example C13_nonvacuous : pipeline_check_separate sep_env 0 6 = SepAnswer true /\ pipeline_check_separate sep_env 6 1 = SepAnswer false /\
  pipeline_check_separate sep_env 5 6 = SepAnswer true /\ pipeline_check_separate sep_env 5 2 = SepAnswer true /\
  (forall c p, t_belong sep_env c = Some p -> t_kind sep_env p <> None).
Proof.
  split; [vm_compute; reflexivity|]. split; [vm_compute; reflexivity|]. split; [vm_compute; reflexivity|]. split; [vm_compute; reflexivity|].
  intros c p H. cbn [t_belong sep_env] in H. destruct (Nat.ltb 4 c); inversion H; subst. discriminate.
Qed.
