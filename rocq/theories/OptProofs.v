(** Path collection, clique search, trim. *)
From Verif Require Import GraphModel GraphSpec DepProofs TopoProofs FastProofs OptModel.
From Coq Require Import Lia.
Local Open Scope nat_scope.

(** ** Chains *)
Lemma chain_join {A} (R : A -> A -> Prop) : forall l1 x l2, chain R (l1 ++ [x]) -> chain R (x :: l2) -> chain R (l1 ++ x :: l2).
Proof.
  induction l1 as [|a l1 IH]; intros x l2 H1 H2; [exact H2|].
  destruct l1 as [|b l1]; simpl in *; [split; [apply H1|exact H2]|]. destruct H1 as [Ha H1]. split; [exact Ha|]. apply (IH x l2 H1 H2).
Qed.
Lemma chain_mono {A} (R S : A -> A -> Prop) : forall l, (forall a b, In a l -> In b l -> R a b -> S a b) -> chain R l -> chain S l.
Proof.
  induction l as [|a l IH]; intros H Hc; [exact I|]. destruct l as [|b l]; [exact I|]. destruct Hc as [Hab Hc].
  split; [apply H; simpl; auto|]. apply IH; [|exact Hc]. intros x y Hx Hy. apply H; right; assumption.
Qed.
Lemma chain_rev {A} (R : A -> A -> Prop) : forall l, chain R l -> chain (fun a b => R b a) (rev l).
Proof.
  induction l as [|a l IH]; intros H; [exact I|]. simpl. destruct l as [|b l]; [exact I|]. destruct H as [Hab H]. specialize (IH H).
  simpl in *. rewrite <- app_assoc. simpl. apply chain_join; [exact IH|]. split; [exact Hab|exact I].
Qed.
Lemma trans_chain (R : nat -> nat -> Prop) x y : clos_trans nat R x y -> exists m, chain R (x :: m ++ [y]).
Proof.
  induction 1 as [x y H|x y z _ [m1 H1] _ [m2 H2]].
  - exists []. simpl. auto.
  - exists (m1 ++ y :: m2). change (chain R ((x :: m1 ++ y :: m2) ++ [z])).
    replace ((x :: m1 ++ y :: m2) ++ [z]) with ((x :: m1) ++ y :: (m2 ++ [z])) by (simpl; rewrite <- app_assoc; reflexivity).
    apply chain_join; assumption.
Qed.
Lemma chain_before (R : nat -> nat -> Prop) l d e : chain R l -> before l d e -> clos_trans nat R d e.
Proof.
  intros H [a [b [c E]]]. subst l. apply chain_app_r in H. replace (d :: b ++ e :: c) with ((d :: b ++ [e]) ++ c) in H by (simpl; rewrite <- app_assoc; reflexivity).
  apply chain_app_l in H. apply chain_trans in H. exact H.
Qed.

Lemma collect_all_in {A} (f : nat -> option (list A)) : forall l ps, collect_all f l = Some ps ->
  forall p, In p ps <-> exists x q, In x l /\ f x = Some q /\ In p q.
Proof.
  induction l as [|x l IH]; intros ps H p; simpl in H.
  - inversion H; subst. split; [intros []|intros [x [q [[] _]]]].
  - destruct (f x) as [a|] eqn:Ex; [|discriminate]. destruct (collect_all f l) as [b|]; [|discriminate]. inversion H; subst; clear H.
    rewrite in_app_iff, (IH b eq_refl). split.
    + intros [Hp|[y [q [Hy Hq]]]]; [exists x, a; simpl; auto|exists y, q; simpl; tauto].
    + intros [y [q [[<-|Hy] [Hq Hp]]]]; [left; congruence|right; eauto].
Qed.
Lemma collect_all_total {A} (f : nat -> option (list A)) : forall l, (forall x, In x l -> f x <> None) -> collect_all f l <> None.
Proof.
  induction l as [|x l IH]; intros H; simpl; [discriminate|]. destruct (f x) eqn:E; [|exfalso; apply (H x); simpl; auto].
  destruct (collect_all f l) eqn:E2; [discriminate|]. exfalso. apply IH; [|reflexivity]. intros y Hy. apply H; simpl; auto.
Qed.
Lemma collect_all_some {A} (f : nat -> option (list A)) : forall l ps x, collect_all f l = Some ps -> In x l -> exists q, f x = Some q.
Proof.
  induction l as [|y l IH]; intros ps x H Hx; [contradiction|]. simpl in H. destruct (f y) eqn:Ey; [|discriminate]. destruct (collect_all f l) eqn:E; [|discriminate].
  destruct Hx as [<-|Hx]; [eauto|]. eapply IH; [reflexivity|exact Hx].
Qed.

Section G.
Variable g : graph.
Hypothesis Hwf : wf g.
Hypothesis Ha : acyclic g.
Let R (a b : nat) := In b (succ g a).

Lemma R_edge a b : In a (els g) -> R a b -> edge g a b.
Proof.
  intros H1 H2. assert (Hb : In b (els g)) by (apply (wf_succ g Hwf a H1); exact H2). split; [exact Hb|]. apply (wf_sym g Hwf); assumption.
Qed.
Lemma edge_R a b : edge g a b -> In a (els g) /\ In b (els g) /\ R a b.
Proof.
  intros [Hb Hd]. assert (Hae : In a (els g)) by (apply (wf_dep g Hwf b Hb); exact Hd). split; [exact Hae|]. split; [exact Hb|]. apply (wf_sym g Hwf); assumption.
Qed.
Lemma R_chain_in : forall l e, In e (els g) -> chain R (e :: l) -> incl (e :: l) (els g) /\ chain (edge g) (e :: l).
Proof.
  induction l as [|x l IH]; intros e He H.
  - split; [intros y [<-|[]]; exact He|exact I].
  - destruct H as [H1 H2]. pose proof (R_edge e x He H1) as Hed. destruct (IH x (proj1 Hed) H2) as [I1 I2].
    split; [intros y [<-|Hy]; [exact He|apply I1; exact Hy]|]. split; assumption.
Qed.
Lemma edge_chain_nodup : forall l, chain (edge g) l -> NoDup l.
Proof.
  intros l H. destruct (ListDec.NoDup_decidable (fun x y => match Nat.eq_dec x y with left E => or_introl E | right E => or_intror E end) l) as [|Hn]; [assumption|exfalso].
  apply not_nodup_repeat in Hn. destruct Hn as [l1 [x [l2 [l3 E]]]]. apply (Ha x). apply (chain_before (edge g) l); [exact H|]. exists l1, l2, l3. exact E.
Qed.

Lemma collect_in : forall fuel cur e ps, collect fuel g cur e = Some ps ->
  forall p, In p ps <-> exists l, p = cur ++ e :: l /\ chain R (e :: l) /\ succ g (last (e :: l) 0) = [].
Proof.
  induction fuel as [|fuel IH]; intros cur e ps H p; [discriminate|]. cbn [collect] in H. destruct (succ g e) as [|x s] eqn:Es.
  - inversion H; subst; clear H. split.
    + intros [<-|[]]. exists []. split; [reflexivity|]. split; [exact I|exact Es].
    + intros [l [-> [Hc _]]]. destruct l as [|y l]; [left; reflexivity|]. destruct Hc as [Hc _]. unfold R in Hc. rewrite Es in Hc. contradiction.
  - rewrite (collect_all_in _ _ _ H p). split.
    + intros [y [q [Hy [Hq Hp]]]]. apply (IH _ _ _ Hq) in Hp. destruct Hp as [l [-> [Hc Hl]]]. exists (y :: l).
      split; [rewrite <- app_assoc; reflexivity|]. split; [|exact Hl]. split; [unfold R; rewrite Es; exact Hy|exact Hc].
    + intros [l [-> [Hc Hl]]]. destruct l as [|y l]; [simpl in Hl; rewrite Es in Hl; discriminate|]. destruct Hc as [Hy Hc]. unfold R in Hy. rewrite Es in Hy.
      destruct (collect_all_some _ _ _ _ H Hy) as [q Hq]. exists y, q. split; [exact Hy|]. split; [exact Hq|]. apply (IH _ _ _ Hq). exists l.
      split; [rewrite <- app_assoc; reflexivity|]. split; [exact Hc|exact Hl].
Qed.
Lemma collect_total : forall fuel cur e, (forall l, chain R (e :: l) -> length (e :: l) <= fuel) -> collect fuel g cur e <> None.
Proof.
  induction fuel as [|fuel IH]; intros cur e H; [specialize (H [] I); simpl in H; lia|]. cbn [collect]. destruct (succ g e) as [|x s] eqn:Es; [discriminate|].
  apply collect_all_total. intros y Hy. apply IH. intros l Hc. specialize (H (y :: l)). simpl in *. apply le_S_n. apply H. split; [unfold R; rewrite Es; exact Hy|exact Hc].
Qed.

(** Extending a chain to a maximal one. *)
Lemma walk_chain : forall n x, chain R (walk g n x).
Proof.
  induction n as [|n IH]; intros x; simpl; [exact I|]. destruct (succ g x) as [|z l] eqn:E; [exact I|].
  specialize (IH z). destruct (walk_head g n z) as [w Ew]. rewrite Ew in *. split; [unfold R; rewrite E; left; reflexivity|exact IH].
Qed.
Lemma forward x : In x (els g) -> exists l, chain R (x :: l) /\ succ g (last (x :: l) 0) = [].
Proof.
  intros Hx. set (N := length (els g)). destruct (walk_head g N x) as [l El]. exists l. rewrite <- El. split; [apply walk_chain|].
  destruct (@exists_last _ (walk g N x)) as [a [t E]]; [rewrite El; discriminate|]. pose proof (walk_next g N x a t [] E) as K. rewrite E, last_last.
  destruct K as [K|K]; [exact K|]. pose proof (NoDup_incl_length (walk_nodup g Hwf Ha N x Hx) (walk_incl g Hwf N x Hx)). unfold N in *. lia.
Qed.
End G.

Definition flip (g : graph) : graph := mkGraph (els g) (succ g) (dep g).
Lemma flip_wf g : wf g -> wf (flip g).
Proof.
  intros [H1 H2 H3 H4]. constructor; simpl; auto. intros d e Hd He. symmetry. apply H4; assumption.
Qed.
Lemma flip_edge g a b : wf g -> edge (flip g) a b -> edge g b a.
Proof.
  intros Hwf [Hb Hs]. simpl in *. destruct (R_edge g Hwf b a Hb Hs) as [H1 H2]. split; assumption.
Qed.
Lemma flip_path g a b : wf g -> path (flip g) a b -> path g b a.
Proof. intros Hwf. induction 1 as [x y H|x y z _ IH1 _ IH2]; [apply t_step, flip_edge; assumption|eapply t_trans; eassumption]. Qed.
Lemma flip_acyclic g : wf g -> acyclic g -> acyclic (flip g).
Proof. intros Hwf Ha e H. apply (Ha e), flip_path; assumption. Qed.

(** Every path is contained in a collected one, and collected ones are chains of dependencies. *)
Lemma collect_paths_full g : wf g -> acyclic g -> exists paths, collect_paths g = Some paths /\
  (forall p, In p paths -> chain (edge g) p /\ incl p (els g)) /\
  (forall d e, path g d e -> exists p, In p paths /\ before p d e) /\
  (forall e, In e (els g) -> exists p, In p paths /\ In e p) /\
  (forall p, In p paths -> p <> [] /\ dep g (hd 0 p) = [] /\ succ g (last p 0) = []) /\
  (forall d m, In d (els g) -> chain (edge g) (d :: m) -> exists a b, In (a ++ (d :: m) ++ b) paths).
Proof.
  intros Hwf Ha. set (R := fun a b => In b (succ g a)).
  assert (Hlen : forall e l, In e (els g) -> chain R (e :: l) -> length (e :: l) <= length (els g)).
  { intros e l He Hc. destruct (R_chain_in g Hwf l e He Hc) as [H1 H2]. apply NoDup_incl_length; [apply (edge_chain_nodup g Ha _ H2)|exact H1]. }
  destruct (collect_paths g) as [paths|] eqn:E.
  2: { exfalso. revert E. apply collect_all_total. intros x Hx. apply collect_total. intros l Hc. apply (Hlen x l); [|exact Hc].
       unfold fronts in Hx. apply filter_In in Hx. apply Hx. }
  exists paths. split; [reflexivity|].
  assert (Hin : forall p, In p paths <-> exists f l, In f (fronts g) /\ p = f :: l /\ chain R (f :: l) /\ succ g (last (f :: l) 0) = []).
  { intros p. rewrite (collect_all_in _ _ _ E p). split.
    - intros [x [q [Hx [Hq Hp]]]]. apply (collect_in g _ _ _ _ Hq) in Hp. destruct Hp as [l [-> Hp]]. exists x, l. auto.
    - intros [f [l [Hf [-> Hc]]]]. destruct (collect_all_some _ _ _ _ E Hf) as [q Hq]. exists f, q. split; [exact Hf|]. split; [exact Hq|]. apply (collect_in g _ _ _ _ Hq). exists l. auto. }
  assert (Hfr : forall f, In f (fronts g) -> In f (els g) /\ dep g f = []).
  { intros f Hf. unfold fronts in Hf. apply filter_In in Hf. destruct Hf as [H1 H2]. split; [exact H1|]. destruct (dep g f); [reflexivity|discriminate]. }
  (* a chain d :: m with d and its last element can be completed on both sides *)
  assert (Hcomp : forall d m, In d (els g) -> chain (edge g) (d :: m) -> exists a b, In (a ++ (d :: m) ++ b) paths).
  { intros d m Hd Hc.
    assert (HcR : chain R (d :: m)).
    { eapply chain_mono; [|exact Hc]. intros x y _ _ Hxy. apply (edge_R g Hwf x y Hxy). }
    destruct (@exists_last _ (d :: m)) as [m' [z Ez]]; [discriminate|].
    assert (Hz : In z (els g)).
    { apply (R_chain_in g Hwf m d Hd HcR). rewrite Ez. apply in_or_app; right; left; reflexivity. }
    destruct (forward g Hwf Ha z Hz) as [lf [Hf1 Hf2]].
    destruct (forward (flip g) (flip_wf g Hwf) (flip_acyclic g Hwf Ha) d Hd) as [lb [Hb1 Hb2]]. change (dep g (last (d :: lb) 0) = []) in Hb2.
    (* backward chain, reversed *)
    assert (Hb3 : chain R (rev lb ++ [d])).
    { change (rev lb ++ [d]) with (rev (d :: lb)).
      destruct (R_chain_in (flip g) (flip_wf g Hwf) lb d Hd Hb1) as [I1 I2].
      eapply chain_mono; [|apply chain_rev; exact I2]. intros x y _ _ Hxy. apply (flip_edge g _ _ Hwf) in Hxy. apply (edge_R g Hwf _ _ Hxy). }
    assert (Hall : chain R (rev lb ++ (d :: m) ++ lf)).
    { replace (rev lb ++ (d :: m) ++ lf) with ((rev lb ++ m') ++ z :: lf) by (rewrite Ez, <- !app_assoc; reflexivity).
      apply chain_join; [|exact Hf1]. rewrite <- app_assoc, <- Ez. apply chain_join; assumption. }
    exists (rev lb), lf. apply Hin.
    assert (Hhd : exists f l, rev lb ++ [d] = f :: l /\ In f (fronts g)).
    { destruct (@exists_last _ (d :: lb)) as [lb' [f Ef]]; [discriminate|]. exists f, (rev lb').
      change (rev lb ++ [d]) with (rev (d :: lb)). rewrite Ef, rev_app_distr. split; [reflexivity|].
      rewrite Ef, last_last in Hb2. unfold fronts. apply filter_In. rewrite Hb2. split; [|reflexivity].
      destruct (R_chain_in (flip g) (flip_wf g Hwf) lb d Hd Hb1) as [I1 _]. apply I1. rewrite Ef. apply in_or_app; right; left; reflexivity. }
    destruct Hhd as [f [l [El Hf]]]. exists f, (l ++ m ++ lf).
    assert (Eq : rev lb ++ (d :: m) ++ lf = f :: l ++ m ++ lf).
    { change ((d :: m) ++ lf) with ([d] ++ m ++ lf). rewrite app_assoc, El. reflexivity. }
    split; [exact Hf|]. split; [exact Eq|]. rewrite <- Eq. split; [exact Hall|].
    replace (rev lb ++ (d :: m) ++ lf) with ((rev lb ++ m') ++ z :: lf) by (rewrite Ez, <- !app_assoc; reflexivity).
    rewrite <- Hf2. f_equal. clear. induction (rev lb ++ m') as [|x l IH]; [reflexivity|]. simpl (last ((x :: l) ++ z :: lf) 0). destruct (l ++ z :: lf) eqn:E; [destruct l; discriminate|]. rewrite <- E in *. exact IH. }
  split; [|split; [|split; [|split; [|exact Hcomp]]]].
  - intros p Hp. apply Hin in Hp. destruct Hp as [f [l [Hf [-> [Hc _]]]]]. destruct (R_chain_in g Hwf l f (proj1 (Hfr f Hf)) Hc); auto.
  - intros d e Hp. destruct (trans_chain _ _ _ Hp) as [m Hm].
    assert (Hd : In d (els g)). { destruct m as [|x m]; simpl in Hm; destruct Hm as [Hm _]; apply (edge_R g Hwf _ _ Hm). }
    destruct (Hcomp d (m ++ [e]) Hd Hm) as [a [b Hab]]. exists (a ++ (d :: m ++ [e]) ++ b). split; [exact Hab|].
    exists a, m, b. simpl. rewrite <- app_assoc. reflexivity.
  - intros e He. destruct (Hcomp e [] He I) as [a [b Hab]]. exists (a ++ [e] ++ b). split; [exact Hab|]. apply in_or_app; right; left; reflexivity.
  - intros p Hp. apply Hin in Hp. destruct Hp as [f [l [Hf [-> [_ Hs]]]]]. split; [discriminate|]. split; [exact (proj2 (Hfr f Hf))|exact Hs].
Qed.
Lemma collect_paths_spec g : wf g -> acyclic g -> exists paths, collect_paths g = Some paths /\
  (forall p, In p paths -> chain (edge g) p /\ incl p (els g)) /\
  (forall d e, path g d e -> exists p, In p paths /\ before p d e) /\
  (forall e, In e (els g) -> exists p, In p paths /\ In e p).
Proof. intros Hwf Ha. destruct (collect_paths_full g Hwf Ha) as [ps [H1 [H2 [H3 [H4 _]]]]]. exists ps. auto. Qed.

(** ** Positions and the matrix *)
Lemma pos_lt l x : In x l -> pos l x < length l.
Proof. induction l as [|y l IH]; intros H; [contradiction|]. simpl. destruct (Nat.eqb_spec y x); [lia|]. destruct H; [congruence|]. specialize (IH H). lia. Qed.
Lemma pos_nth l x d : In x l -> nth (pos l x) l d = x.
Proof. induction l as [|y l IH]; intros H; [contradiction|]. simpl. destruct (Nat.eqb_spec y x); [assumption|]. destruct H; [congruence|auto]. Qed.
Lemma pos_inj l x y : In x l -> In y l -> pos l x = pos l y -> x = y.
Proof. intros Hx Hy H. rewrite <- (pos_nth l x 0 Hx), <- (pos_nth l y 0 Hy), H. reflexivity. Qed.
Lemma nth_pos l i d : NoDup l -> i < length l -> pos l (nth i l d) = i.
Proof.
  intros Hn Hi. assert (Hin : In (nth i l d) l) by (apply nth_In; exact Hi).
  apply (proj1 (NoDup_nth l d)); [exact Hn|apply pos_lt; exact Hin|exact Hi|apply pos_nth; exact Hin].
Qed.

(** A cell holds [fa] (or [so]) for pairs on a common path, in that order (in the opposite order), [un] for all others. *)
Definition on_path (paths : list (list nat)) (x y : nat) : Prop := exists p, In p paths /\ before p x y.

Lemma pos_eqb L x y : In x L -> In y L -> Nat.eqb (pos L x) (pos L y) = Nat.eqb x y.
Proof.
  intros Hx Hy. destruct (Nat.eqb_spec x y) as [->|Hn]; [apply Nat.eqb_refl|]. apply Nat.eqb_neq. intros E. apply Hn. eapply pos_inj; eassumption.
Qed.

(** With an irreflexive, antisymmetric order [P] containing all pairs written, writing them in any order gives the matrix. *)
Section Build.
Variable L : list nat.
Variable P : nat -> nat -> Prop.
Hypothesis Panti : forall x y, P x y -> P y x -> False.
Variable fa so un : Z.
(** Invariant: each cell is either as initially or right. *)
Definition cells (m : mat) (W : nat -> nat -> Prop) : Prop :=
  forall x y, In x L -> In y L ->
    (W x y -> m (pos L x) (pos L y) = fa) /\ (W y x -> m (pos L x) (pos L y) = so) /\
    (~ W x y -> ~ W y x -> m (pos L x) (pos L y) = un).
Lemma cells_write m W x y : cells m W -> (forall a b, W a b -> P a b) -> In x L -> In y L -> P x y ->
  cells (mset (mset m (pos L x) (pos L y) fa) (pos L y) (pos L x) so) (fun a b => W a b \/ (a = x /\ b = y)).
Proof.
  intros H HW Hx Hy Hp a b Hax Hby. unfold mset. rewrite !pos_eqb by assumption.
  assert (Hxy : x <> y) by (intros ->; eapply Panti; eassumption).
  destruct (H a b Hax Hby) as [C1 [C2 C3]].
  destruct (Nat.eqb_spec a y) as [->|Hay], (Nat.eqb_spec b x) as [->|Hbx]; cbn [andb].
  - (* cell (y, x) *) split; [|split].
    + intros [X|[X _]]; [apply HW in X; destruct (Panti _ _ Hp X)|congruence].
    + intros _; reflexivity.
    + intros _ X. exfalso. apply X. auto.
  - destruct (Nat.eqb_spec y x) as [E|_]; [congruence|]. cbn [andb]. split; [|split].
    + intros [X|[X _]]; [auto|congruence].
    + intros [X|[X _]]; [auto|congruence].
    + intros X1 X2. apply C3; tauto.
  - destruct (Nat.eqb_spec a x) as [->|Hax']; cbn [andb].
    + destruct (Nat.eqb_spec x y) as [E|_]; [congruence|]. split; [|split].
      * intros [X|[_ X]]; [auto|congruence].
      * intros [X|[_ X]]; [auto|congruence].
      * intros X1 X2. apply C3; tauto.
    + split; [|split].
      * intros [X|[X _]]; [auto|congruence].
      * intros [X|[_ X]]; [auto|congruence].
      * intros X1 X2. apply C3; tauto.
  - destruct (Nat.eqb_spec a x) as [->|Hax']; destruct (Nat.eqb_spec b y) as [->|Hby']; cbn [andb].
    + split; [|split]; [reflexivity| |].
      * intros [X|[X _]]; [apply HW in X; destruct (Panti _ _ Hp X)|congruence].
      * intros X. exfalso. apply X. auto.
    + split; [|split]; [intros [X|[_ X]]; [auto|congruence]|intros [X|[X _]]; [auto|congruence]|intros X1 X2; apply C3; tauto].
    + split; [|split]; [intros [X|[X _]]; [auto|congruence]|intros [X|[X _]]; [auto|congruence]|intros X1 X2; apply C3; tauto].
    + split; [|split]; [intros [X|[X _]]; [auto|congruence]|intros [X|[X _]]; [auto|congruence]|intros X1 X2; apply C3; tauto].
Qed.
Lemma cells_ext m W W' : (forall a b, W a b <-> W' a b) -> cells m W -> cells m W'.
Proof.
  intros E H a b Ha Hb. destruct (H a b Ha Hb) as [C1 [C2 C3]]. rewrite <- !E. auto.
Qed.
Lemma cells_row : forall r x m W, cells m W -> (forall a b, W a b -> P a b) -> In x L -> incl r L -> (forall y, In y r -> P x y) ->
  cells (fold_left (fun m y => mset (mset m (pos L x) (pos L y) fa) (pos L y) (pos L x) so) r m) (fun a b => W a b \/ (a = x /\ In b r)).
Proof.
  induction r as [|y r IH]; intros x m W H HW Hx Hr Hp; simpl.
  - eapply cells_ext; [|exact H]. intros a b. tauto.
  - eapply cells_ext; [|apply (IH x _ (fun a b => W a b \/ (a = x /\ b = y)))].
    + intros a b. split; [intros [[X|[X1 X2]]|[X1 X2]]; subst; auto|intros [X|[X1 [X2|X2]]]; subst; auto].
    + apply cells_write; auto; [apply Hr; left; reflexivity|apply Hp; left; reflexivity].
    + intros a b [X|[-> ->]]; [auto|apply Hp; left; reflexivity].
    + exact Hx.
    + intros z Hz. apply Hr; right; exact Hz.
    + intros z Hz. apply Hp; right; exact Hz.
Qed.
Lemma before_cons {A} (x : A) l a b : before (x :: l) a b <-> (a = x /\ In b l) \/ before l a b.
Proof.
  split.
  - intros [l1 [l2 [l3 E]]]. destruct l1 as [|z l1]; simpl in E; inversion E; subst.
    + left. split; [reflexivity|]. apply in_or_app; right; left; reflexivity.
    + right. exists l1, l2, l3. reflexivity.
  - intros [[-> Hb]|[l1 [l2 [l3 ->]]]].
    + apply in_split in Hb. destruct Hb as [l2 [l3 ->]]. exists [], l2, l3. reflexivity.
    + exists (x :: l1), l2, l3. reflexivity.
Qed.
Lemma cells_path : forall p m W, cells m W -> (forall a b, W a b -> P a b) -> incl p L -> (forall a b, before p a b -> P a b) ->
  cells (add_pairs L fa so m p) (fun a b => W a b \/ before p a b).
Proof.
  induction p as [|x r IH]; intros m W H HW Hp Hb; simpl.
  - eapply cells_ext; [|exact H]. intros a b. split; [auto|]. intros [X|[l1 [l2 [l3 X]]]]; [exact X|destruct l1; discriminate].
  - eapply cells_ext; [|apply (IH _ (fun a b => W a b \/ (a = x /\ In b r)))].
    + intros a b. rewrite before_cons. tauto.
    + apply cells_row; auto; [apply Hp; left; reflexivity|intros z Hz; apply Hp; right; exact Hz|]. intros y Hy. apply Hb, before_cons. left; auto.
    + intros a b [X|[-> X]]; [auto|]. apply Hb, before_cons. left; auto.
    + intros z Hz. apply Hp; right; exact Hz.
    + intros a b X. apply Hb, before_cons. right; exact X.
Qed.
Lemma cells_paths : forall paths m W, cells m W -> (forall a b, W a b -> P a b) -> (forall p, In p paths -> incl p L) ->
  (forall p a b, In p paths -> before p a b -> P a b) ->
  cells (fold_left (add_pairs L fa so) paths m) (fun a b => W a b \/ on_path paths a b).
Proof.
  induction paths as [|p paths IH]; intros m W H HW Hp Hb; simpl.
  - eapply cells_ext; [|exact H]. intros a b. split; [auto|]. intros [X|[q [[] _]]]. exact X.
  - eapply cells_ext; [|apply (IH _ (fun a b => W a b \/ before p a b))].
    + intros a b. unfold on_path. split.
      * intros [[X|X]|[q [Hq X]]]; [auto|right; exists p; simpl; auto|right; exists q; simpl; auto].
      * intros [X|[q [[<-|Hq] X]]]; [auto|auto|right; eauto].
    + apply cells_path; auto; [apply Hp; left; reflexivity|]. intros a b X. eapply Hb; [left; reflexivity|exact X].
    + intros a b [X|X]; [auto|]. eapply Hb; [left; reflexivity|exact X].
    + intros q Hq. apply Hp; right; exact Hq.
    + intros q a b Hq. apply Hb; right; exact Hq.
Qed.
End Build.

Lemma path_anti g x y : acyclic g -> path g x y -> path g y x -> False.
Proof. intros Ha H1 H2. apply (Ha x). eapply t_trans; eassumption. Qed.
(** The matrix of a graph. *)
Lemma build_graph_spec g fa so un : wf g -> acyclic g -> exists paths, collect_paths g = Some paths /\
  forall x y, In x (els g) -> In y (els g) ->
    (path g x y -> build_graph (els g) paths fa so un (pos (els g) x) (pos (els g) y) = fa) /\
    (path g y x -> build_graph (els g) paths fa so un (pos (els g) x) (pos (els g) y) = so) /\
    (~ path g x y -> ~ path g y x -> build_graph (els g) paths fa so un (pos (els g) x) (pos (els g) y) = un).
Proof.
  intros Hwf Ha. destruct (collect_paths_spec g Hwf Ha) as [paths [E [H1 [H2 _]]]]. exists paths. split; [exact E|].
  assert (Hon : forall a b, False \/ on_path paths a b <-> path g a b).
  { intros a b. split; [intros [[]|[p [Hp Hb]]]; apply (chain_before (edge g) p); [apply H1; exact Hp|exact Hb]|].
    intros Hp. right. destruct (H2 a b Hp) as [p Hpp]. exists p. exact Hpp. }
  assert (C : cells (els g) fa so un (build_graph (els g) paths fa so un) (path g)).
  { eapply cells_ext; [exact Hon|]. apply (cells_paths (els g) (path g)).
    - intros x y X Y. exact (path_anti g x y Ha X Y).
    - intros x y _ _. split; [intros []|split; [intros []|reflexivity]].
    - intros a b [].
    - intros p Hp. apply H1; exact Hp.
    - intros p a b Hp Hb. apply (chain_before (edge g) p); [apply H1; exact Hp|exact Hb]. }
  exact C.
Qed.

(** Paths are decidable. *)
Fixpoint beforeb (p : list nat) (a b : nat) : bool :=
  match p with [] => false | x :: r => (Nat.eqb x a && memb b r) || beforeb r a b end.
Lemma beforeb_spec a b : forall p, beforeb p a b = true <-> before p a b.
Proof.
  induction p as [|x r IH]; simpl.
  - split; [discriminate|]. intros [l1 [l2 [l3 X]]]. destruct l1; discriminate.
  - rewrite before_cons, Bool.orb_true_iff, Bool.andb_true_iff, Nat.eqb_eq, memb_in, IH. split; intros [[H1 H2]|H]; subst; auto.
Qed.
Lemma path_dec g x y : wf g -> acyclic g -> path g x y \/ ~ path g x y.
Proof.
  intros Hwf Ha. destruct (collect_paths_spec g Hwf Ha) as [paths [_ [H1 [H2 _]]]].
  destruct (existsb (fun p => beforeb p x y) paths) eqn:E.
  - left. apply existsb_exists in E. destruct E as [p [Hp Hb]]. apply beforeb_spec in Hb. apply (chain_before (edge g) p); [apply H1; exact Hp|exact Hb].
  - right. intros Hp. destruct (H2 x y Hp) as [p [Hin Hb]]. assert (X : existsb (fun p => beforeb p x y) paths = true) by (apply existsb_exists; exists p; split; [exact Hin|apply beforeb_spec; exact Hb]). congruence.
Qed.

(** ** Clique search *)
Inductive sub {A} : list A -> list A -> Prop :=
| sub_nil : sub [] []
| sub_skip x l l' : sub l l' -> sub l (x :: l')
| sub_take x l l' : sub l l' -> sub (x :: l) (x :: l').
Lemma sub_length {A} (l l' : list A) : sub l l' -> length l <= length l'.
Proof. induction 1; simpl; lia. Qed.
Lemma sub_in {A} (l l' : list A) x : sub l l' -> In x l -> In x l'.
Proof. induction 1; simpl; intuition. Qed.
Lemma sub_nodup {A} (l l' : list A) : sub l l' -> NoDup l' -> NoDup l.
Proof.
  induction 1; intros Hn; [constructor| |]; inversion Hn; subst; [auto|]. constructor; [|auto]. intros X. eapply sub_in in X; [|eassumption]. contradiction.
Qed.
Lemma sub_filter {A} (f : A -> bool) l : sub (filter f l) l.
Proof. induction l as [|x l IH]; simpl; [constructor|]. destruct (f x); constructor; exact IH. Qed.
Lemma sub_nil_l {A} (l : list A) : sub [] l.
Proof. induction l; constructor; assumption. Qed.

Definition linked (M : mat) (l : list nat) : Prop := forall j i, before l j i -> M j i = 1%Z.
Lemma before_snoc {A} (l : list A) a b x : before (l ++ [x]) a b <-> before l a b \/ (In a l /\ b = x).
Proof.
  induction l as [|y l IH]; simpl.
  - rewrite before_cons. split; [intros [[_ []]|[l1 [l2 [l3 X]]]]; destruct l1; discriminate|]. intros [[l1 [l2 [l3 X]]]|[[] _]]. destruct l1; discriminate.
  - rewrite !before_cons, IH, in_app_iff. simpl. split; [intros [[-> [H|[H|[]]]]|[H|[H1 H2]]]; subst; auto|intros [[[-> H]|H]|[[->|H] ->]]; auto].
Qed.
Lemma backtrace_spec n M : forall k clique mx, k <= n -> linked M clique ->
  let r := backtrace k n M clique mx in
  mx <= r /\
  (r = mx \/ exists ext, sub ext (seq (n - k) k) /\ linked M (clique ++ ext) /\ r = length clique + length ext) /\
  (forall ext, sub ext (seq (n - k) k) -> linked M (clique ++ ext) -> length clique + length ext <= r).
Proof.
  induction k as [|k IH]; intros clique mx Hk Hl; cbn zeta; cbn [backtrace].
  - split; [apply Nat.le_max_r|]. split.
    + destruct (Nat.max_dec (length clique) mx) as [E|E]; [right|left; exact E]. exists []. split; [constructor|]. rewrite app_nil_r. split; [exact Hl|]. simpl. lia.
    + intros ext Hs _. apply sub_length in Hs. simpl in Hs. lia.
  - assert (Hseq : seq (n - S k) (S k) = (n - S k) :: seq (n - k) k) by (simpl; f_equal; f_equal; lia).
    destruct (Nat.leb_spec (length clique + n - (n - S k)) mx) as [Hc|Hc].
    + split; [lia|]. split; [left; reflexivity|]. intros ext Hs _. apply sub_length in Hs. rewrite seq_length in Hs. lia.
    + set (i := n - S k) in *.
      set (mx' := if forallb (fun j => (M j i =? 1)%Z) clique then backtrace k n M (clique ++ [i]) mx else mx).
      assert (H1 : mx <= mx' /\ (mx' = mx \/ exists ext, sub ext (seq i (S k)) /\ linked M (clique ++ ext) /\ mx' = length clique + length ext) /\
                   (forall ext, sub ext (seq (n - k) k) -> linked M (clique ++ i :: ext) -> length clique + S (length ext) <= mx')).
      { unfold mx'. destruct (forallb _ clique) eqn:F.
        - assert (Hl' : linked M (clique ++ [i])).
          { intros a b Hb. apply before_snoc in Hb. destruct Hb as [Hb|[Ha ->]]; [apply Hl; exact Hb|]. rewrite forallb_forall in F. apply Z.eqb_eq, F, Ha. }
          destruct (IH (clique ++ [i]) mx ltac:(lia) Hl') as [A1 [A2 A3]]. rewrite app_length in A2, A3. simpl in A2, A3. split; [exact A1|]. split.
          + destruct A2 as [A2|[ext [B1 [B2 B3]]]]; [left; exact A2|right]. exists (i :: ext). rewrite <- app_assoc in B2. rewrite Hseq. split; [constructor; exact B1|]. split; [exact B2|]. simpl. lia.
          + intros ext Hs Hx. specialize (A3 ext Hs). rewrite <- app_assoc in A3. specialize (A3 Hx). lia.
        - split; [lia|]. split; [left; reflexivity|]. intros ext _ Hx. exfalso.
          assert (X : forallb (fun j => (M j i =? 1)%Z) clique = true); [|congruence]. apply forallb_forall. intros j Hj. apply Z.eqb_eq, Hx.
          apply in_split in Hj. destruct Hj as [a [b ->]]. exists a, b, ext. rewrite <- app_assoc. reflexivity. }
      destruct H1 as [B1 [B2 B3]]. destruct (IH clique mx' ltac:(lia) Hl) as [A1 [A2 A3]]. split; [lia|]. split.
      * destruct A2 as [A2|[ext [C1 [C2 C3]]]].
        { rewrite A2. destruct B2 as [B2|B2]; [left; exact B2|right; exact B2]. }
        { right. exists ext. rewrite Hseq. split; [constructor; exact C1|]. split; assumption. }
      * intros ext Hs Hx. rewrite Hseq in Hs. inversion Hs; subst; [apply A3; assumption|]. specialize (B3 _ H1 Hx). simpl. lia.
Qed.

(** A set of elements no two of which are connected by a dependency path. *)
Definition antichain (g : graph) (A : list nat) : Prop :=
  NoDup A /\ incl A (els g) /\ forall x y, In x A -> In y A -> ~ path g x y.

Lemma nodup_map_nth (L : list nat) : NoDup L -> forall ext, NoDup ext -> (forall i, In i ext -> i < length L) -> NoDup (map (fun i => nth i L 0) ext).
Proof.
  intros HL. induction ext as [|i ext IH]; intros Hn Hr; cbn [map]; [constructor|]. inversion Hn; subst. constructor.
  - intros Hin. apply in_map_iff in Hin. destruct Hin as [j [E Hj]]. apply (proj1 (NoDup_nth L 0)) in E; auto; [subst; contradiction|apply Hr; right; exact Hj|apply Hr; left; reflexivity].
  - apply IH; [assumption|]. intros; apply Hr; right; assumption.
Qed.
Lemma max_para_lemma g : wf g -> acyclic g -> exists n, get_max_para_size g = Some n /\
  (exists A, antichain g A /\ length A = n) /\ (forall A, antichain g A -> length A <= n).
Proof.
  intros Hwf Ha. destruct (build_graph_spec g 0 0 1 Hwf Ha) as [paths [E HM]]. unfold get_max_para_size. rewrite E.
  set (M := build_graph (els g) paths 0 0 1) in *. set (L := els g) in *. set (n := length L).
  pose proof (wf_els g Hwf) as Hnd. fold L in Hnd.
  assert (HM1 : forall i j, i < n -> j < n -> i <> j -> (M i j = 1%Z <-> ~ path g (nth i L 0) (nth j L 0) /\ ~ path g (nth j L 0) (nth i L 0))).
  { intros i j Hi Hj Hij. assert (Ii : In (nth i L 0) L) by (apply nth_In; exact Hi). assert (Ij : In (nth j L 0) L) by (apply nth_In; exact Hj).
    destruct (HM _ _ Ii Ij) as [C1 [C2 C3]]. rewrite !nth_pos in C1, C2, C3 by assumption. split.
    - intros X. split; intros Y; [rewrite (C1 Y) in X|rewrite (C2 Y) in X]; discriminate.
    - intros [X Y]. auto. }
  assert (H0 : linked M []) by (intros j i [l1 [l2 [l3 X]]]; destruct l1; discriminate).
  destruct (backtrace_spec n M n [] 0 (le_n _) H0) as [_ [B2 B3]]. rewrite Nat.sub_diag in B2, B3. simpl in B2, B3.
  eexists. split; [reflexivity|]. fold n. set (r := backtrace n n M [] 0) in *. split.
  - assert (X : exists ext, sub ext (seq 0 n) /\ linked M ext /\ r = length ext).
    { destruct B2 as [B2|[ext B2]]; [|exists ext; exact B2]. exists []. split; [apply sub_nil_l|]. split; [exact H0|exact B2]. }
    destruct X as [ext [X1 [X2 X3]]]. exists (map (fun i => nth i L 0) ext). rewrite map_length. split; [|lia].
    assert (Hr : forall i, In i ext -> i < n) by (intros i Hi; eapply sub_in in Hi; [|exact X1]; apply in_seq in Hi; lia).
    assert (Hn : NoDup ext) by (eapply sub_nodup; [exact X1|apply seq_NoDup]).
    split; [|split].
    + apply nodup_map_nth; assumption.
    + intros x Hx. apply in_map_iff in Hx. destruct Hx as [i [<- Hi]]. apply nth_In. apply Hr; exact Hi.
    + intros x y Hx Hy Hp. apply in_map_iff in Hx. destruct Hx as [i [<- Hi]]. apply in_map_iff in Hy. destruct Hy as [j [<- Hj]].
      destruct (Nat.eq_dec i j) as [->|Hij]; [apply (Ha _ Hp)|].
      assert (Hb : before ext i j \/ before ext j i).
      { clear - Hi Hj Hij. induction ext as [|z ext IH]; [contradiction|]. rewrite !before_cons. destruct Hi as [->|Hi], Hj as [->|Hj]; auto; [contradiction|]. destruct (IH Hi Hj); auto. }
      destruct Hb as [Hb|Hb]; apply X2 in Hb; apply HM1 in Hb; auto; tauto.
  - intros A [A1 [A2 A3]].
    assert (Hl : length (filter (fun i => memb (nth i L 0) A) (seq 0 n)) = length A).
    { rewrite <- (map_length (fun i => nth i L 0)). apply Permutation_length. apply NoDup_Permutation; [| |].
      - assert (Hq : NoDup (filter (fun i => memb (nth i L 0) A) (seq 0 n))) by (apply NoDup_filter, seq_NoDup).
        assert (Hr : forall i, In i (filter (fun i => memb (nth i L 0) A) (seq 0 n)) -> i < n) by (intros i Hi; apply filter_In in Hi; destruct Hi as [Hi _]; apply in_seq in Hi; lia).
        apply nodup_map_nth; assumption.
      - exact A1.
      - intros x. rewrite in_map_iff. split.
        + intros [i [<- Hi]]. apply filter_In in Hi. apply memb_in, Hi.
        + intros Hx. exists (pos L x). split; [apply pos_nth, A2, Hx|]. apply filter_In. split; [apply in_seq; pose proof (pos_lt L x (A2 _ Hx)); unfold n; lia|].
          rewrite pos_nth by (apply A2, Hx). apply memb_in, Hx. }
    rewrite <- Hl. apply B3; [apply sub_filter|]. intros j i Hb.
    assert (Hsorted : j <> i).
    { intros ->. assert (Hq : NoDup (filter (fun i => memb (nth i L 0) A) (seq 0 n))) by (apply NoDup_filter, seq_NoDup). destruct Hb as [a [b [c Eb]]]. rewrite Eb in Hq.
      apply NoDup_remove_2 in Hq. apply Hq. apply in_or_app; right. apply in_or_app; right; left; reflexivity. }
    apply before_in in Hb. destruct Hb as [Hj Hi]. apply filter_In in Hj, Hi. destruct Hj as [Hj1 Hj2], Hi as [Hi1 Hi2]. apply in_seq in Hj1, Hi1. apply memb_in in Hj2, Hi2.
    apply HM1; [lia|lia|exact Hsorted|]. split; apply A3; assumption.
Qed.

(** ** Separation *)
Lemma check_separate_lemma g a b : wf g -> acyclic g -> In a (els g) -> In b (els g) -> a <> b ->
  exists r, check_separate g a b = Some r /\ (r = true <-> path g a b \/ path g b a).
Proof.
  intros Hwf Ha Hae Hbe Hab. destruct (collect_paths_spec g Hwf Ha) as [paths [E [H1 [H2 H3]]]]. unfold check_separate. rewrite E.
  eexists. split; [reflexivity|]. rewrite existsb_exists. split.
  - intros [p [Hp X]]. apply andb_prop in X. destruct X as [X1 X2]. apply memb_in in X1, X2.
    assert (Hb : before p a b \/ before p b a).
    { clear - X1 X2 Hab. induction p as [|z p IH]; [contradiction|]. rewrite !before_cons. destruct X1 as [->|X1], X2 as [->|X2]; auto; [contradiction|]. destruct (IH X1 X2); auto. }
    destruct Hb as [Hb|Hb]; [left|right]; apply (chain_before (edge g) p); auto; apply H1; exact Hp.
  - intros [X|X]; destruct (H2 _ _ X) as [p [Hp Hb]]; exists p; (split; [exact Hp|]); apply before_in in Hb; destruct Hb as [B1 B2]; apply memb_in in B1, B2; rewrite B1, B2; reflexivity.
Qed.
