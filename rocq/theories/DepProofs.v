From Verif Require Import GraphModel.
Local Open Scope nat_scope.

Lemma ins_in l x y : In y (ins l x) <-> In y l \/ y = x.
Proof.
  unfold ins. destruct (memb x l) eqn:E.
  - apply memb_in in E. split; [auto|]. intros [H|H]; [exact H|subst; exact E].
  - rewrite in_app_iff. simpl. split; intros [H|H]; auto; destruct H; auto; contradiction.
Qed.
Lemma ins_nodup l x : NoDup l -> NoDup (ins l x).
Proof.
  unfold ins. destruct (memb x l) eqn:E; [auto|]. apply memb_false in E. intros H.
  apply NoDup_app_iff. repeat split; auto.
  - constructor; [simpl; tauto|constructor].
  - intros y Hy [E2|[]]. subst; contradiction.
Qed.
Lemma rem_notin l x : ~ In x l -> rem l x = l.
Proof. induction l as [|y l IH]; simpl; intros H; [reflexivity|]. destruct (Nat.eqb_spec y x); [tauto|]. rewrite IH; tauto. Qed.
Lemma rem_in l x y : NoDup l -> (In y (rem l x) <-> In y l /\ y <> x).
Proof.
  induction l as [|z l IH]; simpl; intros Hnd; [tauto|].
  inversion Hnd; subst. destruct (Nat.eqb_spec z x).
  - subst. split; [intros Hy; split; [auto|intros E; subst; contradiction]|]. intros [[E|Hy] Hne]; [congruence|exact Hy].
  - simpl. rewrite IH by assumption. split.
    + intros [E|[Hy Hne]]; [subst; auto|auto].
    + intros [[E|Hy] Hne]; auto.
Qed.
Lemma rem_nodup l x : NoDup l -> NoDup (rem l x).
Proof.
  induction l as [|z l IH]; simpl; intros Hnd; [constructor|].
  inversion Hnd; subst. destruct (Nat.eqb_spec z x); [assumption|].
  constructor; [|auto]. rewrite rem_in by assumption. tauto.
Qed.

(** The edge relation of a state: [depends st a b] = "a lists b as a dependency". *)
Definition depends (st : gst) (a b : nat) : Prop := In b (e_dep (st a)).
Definition precedes (st : gst) (b a : nat) : Prop := In a (e_succ (st b)).

Definition edges_ok (st : gst) : Prop :=
  (forall a b, depends st a b <-> precedes st b a) /\
  (forall a, ~ depends st a a) /\
  (forall a, NoDup (e_dep (st a)) /\ NoDup (e_succ (st a))).

Definition same_parent (st : gst) : Prop := forall a b, depends st a b -> e_belong (st a) = e_belong (st b).

Lemma obelong_eqb_eq a b : obelong_eqb a b = true <-> a = b.
Proof.
  destruct a, b; simpl; split; intros H; try congruence; try discriminate.
  - apply Nat.eqb_eq in H; congruence.
  - inversion H; apply Nat.eqb_refl.
Qed.

(** One iteration of the insertion loop. *)
Definition add1 (st : gst) (this d : nat) : gst :=
  let st1 := upd st d (set_succ (st d) (ins (e_succ (st d)) this)) in
  upd st1 this (set_dep (st1 this) (ins (e_dep (st1 this)) d)).

Lemma add1_fields st this d x : this <> d ->
  e_dep (add1 st this d x) = (if Nat.eqb x this then ins (e_dep (st x)) d else e_dep (st x)) /\
  e_succ (add1 st this d x) = (if Nat.eqb x d then ins (e_succ (st x)) this else e_succ (st x)) /\
  e_belong (add1 st this d x) = e_belong (st x) /\
  e_init (add1 st this d x) = e_init (st x) /\ e_mut (add1 st this d x) = e_mut (st x) /\
  e_left (add1 st this d x) = e_left (st x).
Proof.
  intros Hne. unfold add1, upd.
  destruct (Nat.eqb_spec x this), (Nat.eqb_spec this d), (Nat.eqb_spec x d); subst; try congruence; simpl; auto 10.
Qed.

Lemma add1_edges_ok st this d : this <> d -> edges_ok st -> edges_ok (add1 st this d).
Proof.
  intros Hne [Hs [Hi Hn]]. unfold edges_ok, depends, precedes in *.
  split; [|split].
  - intros a b. destruct (add1_fields st this d a Hne) as [Ha _]. destruct (add1_fields st this d b Hne) as [_ [Hb _]].
    rewrite Ha, Hb. specialize (Hs a b).
    destruct (Nat.eqb_spec a this), (Nat.eqb_spec b d); subst; rewrite ?ins_in; intuition congruence.
  - intros a. destruct (add1_fields st this d a Hne) as [Ha _]. rewrite Ha.
    destruct (Nat.eqb_spec a this); subst; rewrite ?ins_in; [|apply Hi]. intros [H|H]; [eapply Hi; eauto|congruence].
  - intros a. destruct (add1_fields st this d a Hne) as [Ha [Hb _]]. rewrite Ha, Hb. destruct (Hn a).
    split; [destruct (Nat.eqb a this)|destruct (Nat.eqb a d)]; auto using ins_nodup.
Qed.
Lemma add1_depends st this d a b : this <> d ->
  (depends (add1 st this d) a b <-> depends st a b \/ (a = this /\ b = d)).
Proof.
  intros Hne. unfold depends. destruct (add1_fields st this d a Hne) as [Ha _]. rewrite Ha.
  destruct (Nat.eqb_spec a this); subst; rewrite ?ins_in; intuition congruence.
Qed.

Ltac triv_done :=
  split; [intros ? []|]; split; [intros ? ?; simpl; tauto|]; split; [intros; auto 6|];
  first [solve [auto] | split; [auto|discriminate]].

(** Complete description of the insertion loop. *)
Lemma add_loop_spec : forall l st this st' ok,
  addDepend_loop st this l = (st', ok) ->
  exists done,
    (exists rest, l = map Some done ++ rest /\
       (ok = true -> rest = []) /\
       (ok = false -> exists bad tl, rest = bad :: tl /\
           (bad = None \/ exists d, bad = Some d /\ e_belong (st d) <> e_belong (st this)))) /\
    (forall d, In d done -> e_belong (st d) = e_belong (st this)) /\
    (forall a b, depends st' a b <-> depends st a b \/ (a = this /\ In b done /\ b <> this)) /\
    (forall x, e_belong (st' x) = e_belong (st x) /\ e_init (st' x) = e_init (st x) /\
               e_mut (st' x) = e_mut (st x) /\ e_left (st' x) = e_left (st x)) /\
    (edges_ok st -> edges_ok st').
Proof.
  induction l as [|o l IH]; intros st this st' ok H; simpl in H.
  - inversion H; subst. exists []. split; [exists []; repeat split; auto; discriminate|].
    triv_done.
  - destruct o as [d|].
    + destruct (obelong_eqb (e_belong (st d)) (e_belong (st this))) eqn:Eb; simpl in H.
      * apply obelong_eqb_eq in Eb. destruct (Nat.eqb_spec this d).
        -- subst d. destruct (IH _ _ _ _ H) as [done [[rest [E [Hok Hbad]]] [Hb [Hd [Hf He]]]]].
           exists (this :: done). split; [exists rest; simpl; rewrite E; auto|].
           split; [intros d [E2|Hd2]; [subst; reflexivity|auto]|].
           split; [|split; [exact Hf|exact He]].
           intros a b. rewrite Hd. simpl. intuition congruence.
        -- fold (add1 st this d) in H.
           destruct (IH _ _ _ _ H) as [done [[rest [E [Hok Hbad]]] [Hb [Hd [Hf He]]]]].
           assert (Fb : forall x, e_belong (add1 st this d x) = e_belong (st x)) by (intros x; apply add1_fields; assumption).
           exists (d :: done). split; [exists rest; simpl; rewrite E; repeat split; auto|].
           { intros E2. destruct (Hbad E2) as [bad [tl [Er Hbd]]]. exists bad, tl. split; [exact Er|].
             destruct Hbd as [Hbd|[d2 [E3 Hbd]]]; [auto|right; exists d2; split; [exact E3|]]. rewrite !Fb in Hbd. exact Hbd. }
           split.
           { intros x [E2|Hx]; [subst; exact Eb|]. specialize (Hb x Hx). rewrite !Fb in Hb. exact Hb. }
           split.
           { intros a b. rewrite Hd, add1_depends by assumption. simpl. intuition congruence. }
           split.
           { intros x. destruct (Hf x) as [F1 [F2 [F3 F4]]]. destruct (add1_fields st this d x n) as [_ [_ [G1 [G2 [G3 G4]]]]].
             rewrite F1, F2, F3, F4. auto. }
           { intros Hok2. apply He, add1_edges_ok; assumption. }
      * inversion H; subst. exists []. split.
        { exists (Some d :: l). repeat split; auto; try discriminate.
          intros _. exists (Some d), l. split; [reflexivity|]. right. exists d. split; [reflexivity|].
          intros E. apply obelong_eqb_eq in E. congruence. }
        triv_done.
    + inversion H; subst. exists []. split.
      { exists (None :: l). repeat split; auto; try discriminate. intros _. exists None, l. auto. }
      triv_done.
Qed.

Lemma depends_upd_left st x n a b : depends (upd st x (set_left (st x) n)) a b <-> depends st a b.
Proof. unfold depends, upd. destruct (Nat.eqb_spec a x); subst; simpl; tauto. Qed.
Lemma edges_ok_upd st x e' : e_dep e' = e_dep (st x) -> e_succ e' = e_succ (st x) -> edges_ok st -> edges_ok (upd st x e').
Proof.
  intros Ed Es [Hs [Hi Hn]]. unfold edges_ok, depends, precedes, upd in *.
  split; [|split].
  - intros a b. specialize (Hs a b). destruct (Nat.eqb_spec a x), (Nat.eqb_spec b x); subst; rewrite ?Ed, ?Es; tauto.
  - intros a. specialize (Hi a). destruct (Nat.eqb_spec a x); subst; rewrite ?Ed; tauto.
  - intros a. specialize (Hn a). destruct (Nat.eqb_spec a x); subst; rewrite ?Ed, ?Es; tauto.
Qed.

Lemma addDepend_spec st this l st' ok : addDepend st this l = (st', ok) ->
  exists done,
    (exists rest, l = map Some done ++ rest /\ (ok = true -> rest = [])) /\
    (forall d, In d done -> e_belong (st d) = e_belong (st this)) /\
    (forall a b, depends st' a b <-> depends st a b \/ (a = this /\ In b done /\ b <> this)) /\
    (forall x, e_belong (st' x) = e_belong (st x)) /\
    (edges_ok st -> edges_ok st') /\
    (ok = true -> e_left (st' this) = Z.of_nat (length (e_dep (st' this)))).
Proof.
  unfold addDepend. destruct (negb (e_mut (st this)) && e_init (st this)).
  - intros H; inversion H; subst. exists []. split; [exists l; split; [reflexivity|discriminate]|].
    triv_done.
  - destruct (addDepend_loop st this l) as [st1 ok1] eqn:E. destruct (add_loop_spec _ _ _ _ _ E) as [done [[rest [El [Hok _]]] [Hb [Hd [Hf He]]]]].
    destruct ok1; intros H; inversion H; subst; exists done.
    + split; [exists rest; auto|]. split; [exact Hb|].
      split; [intros a b; rewrite depends_upd_left; apply Hd|].
      split; [intros x; unfold upd; destruct (Nat.eqb_spec x this); subst; simpl; apply Hf|].
      split; [intros H2; apply edges_ok_upd; auto|].
      intros _. rewrite !upd_same. reflexivity.
    + split; [exists rest; auto|]. split; [exact Hb|]. split; [exact Hd|]. split; [intros x; apply Hf|]. split; [exact He|discriminate].
Qed.

Lemma removeDepend_spec st this d st' : edges_ok st -> removeDepend st this (Some d) = (st', true) ->
  e_init (st this) = false /\ depends st this d /\
  (forall a b, depends st' a b <-> depends st a b /\ ~ (a = this /\ b = d)) /\
  (forall x, e_belong (st' x) = e_belong (st x)) /\
  edges_ok st' /\
  e_left (st' this) = Z.of_nat (length (e_dep (st' this))).
Proof.
  intros Hok. unfold removeDepend. destruct (e_init (st this)) eqn:Ei; [discriminate|].
  destruct (memb d (e_dep (st this))) eqn:Em; simpl; [|discriminate].
  apply memb_in in Em. intros H; inversion H; clear H; subst st'.
  pose proof Hok as [Hs [Hi Hn]].
  assert (Hne : this <> d) by (intros E; subst; eapply Hi; exact Em).
  set (st1 := upd st this (set_dep (st this) (rem (e_dep (st this)) d))).
  set (st2 := upd st1 d (set_succ (st1 d) (rem (e_succ (st1 d)) this))).
  assert (F : forall x, e_dep (st2 x) = (if Nat.eqb x this then rem (e_dep (st x)) d else e_dep (st x)) /\
      e_succ (st2 x) = (if Nat.eqb x d then rem (e_succ (st x)) this else e_succ (st x)) /\
      e_belong (st2 x) = e_belong (st x)).
  { intros x. unfold st2, st1, upd.
    destruct (Nat.eqb_spec x this), (Nat.eqb_spec d this), (Nat.eqb_spec x d); subst; try congruence; simpl; auto. }
  assert (D2 : forall a b, depends st2 a b <-> depends st a b /\ ~ (a = this /\ b = d)).
  { intros a b. unfold depends. destruct (F a) as [Fa _]. rewrite Fa.
    destruct (Nat.eqb_spec a this); subst; [|intuition].
    rewrite rem_in by apply Hn. intuition. }
  assert (Ok2 : edges_ok st2).
  { split; [|split].
    - intros a b. rewrite D2. unfold precedes. destruct (F b) as [_ [Fb _]]. rewrite Fb. rewrite Hs. unfold precedes.
      destruct (Nat.eqb_spec b d); subst; [|intuition]. rewrite rem_in by apply Hn. intuition.
    - intros a. rewrite D2. specialize (Hi a). tauto.
    - intros a. destruct (F a) as [Fa [Fb _]]. rewrite Fa, Fb. destruct (Hn a).
      split; [destruct (Nat.eqb a this)|destruct (Nat.eqb a d)]; auto using rem_nodup. }
  split; [reflexivity|]. split; [exact Em|].
  split; [intros a b; rewrite depends_upd_left; apply D2|].
  split; [intros x; unfold upd at 1; destruct (Nat.eqb_spec x this); subst; simpl; apply F|].
  split; [apply edges_ok_upd; auto|].
  rewrite !upd_same. reflexivity.
Qed.

Lemma dep_step_edges_ok st o : edges_ok st -> edges_ok (dep_step st o).
Proof.
  intros H. destruct o as [t l|t [d|]|e g m|e b]; cbn [dep_step].
  - destruct (addDepend st t l) as [st' ok] eqn:E. destruct (addDepend_spec _ _ _ _ _ E) as [done [_ [_ [_ [_ [He _]]]]]]. auto.
  - destruct (removeDepend st t (Some d)) as [st' ok] eqn:E. destruct ok.
    + apply (removeDepend_spec _ _ _ _ H) in E. apply E.
    + simpl. unfold removeDepend in E. destruct (e_init (st t)); [inversion E; subst; exact H|].
      destruct (memb d (e_dep (st t))); simpl in E; [discriminate|]. inversion E; subst; exact H.
  - exact H.
  - apply edges_ok_upd; auto.
  - apply edges_ok_upd; auto.
Qed.

Lemma no_edges_ok st : no_edges st -> edges_ok st.
Proof.
  intros H. unfold edges_ok, depends, precedes. split; [|split].
  - intros a b. destruct (H a) as [-> _]. destruct (H b) as [_ ->]. simpl; tauto.
  - intros a. destruct (H a) as [-> _]. simpl; tauto.
  - intros a. destruct (H a) as [-> ->]. split; constructor.
Qed.

Lemma dep_run_edges_ok h : forall st, edges_ok st -> edges_ok (dep_run st h).
Proof. induction h as [|o h IH]; intros st H; [exact H|]. simpl. apply IH, dep_step_edges_ok, H. Qed.

(** Same-parent invariant for histories that group an element only while it has no edges. *)
Fixpoint groups_before_edges (st : gst) (h : list dep_op) : Prop :=
  match h with
  | [] => True
  | o :: r =>
      (match o with OGroup e _ _ => e_dep (st e) = [] /\ e_succ (st e) = [] | _ => True end) /\
      groups_before_edges (dep_step st o) r
  end.

Lemma dep_step_same_parent st o : edges_ok st -> same_parent st ->
  (match o with OGroup e _ _ => e_dep (st e) = [] /\ e_succ (st e) = [] | _ => True end) ->
  same_parent (dep_step st o).
Proof.
  intros Hok H Ho. destruct o as [t l|t [d|]|e g m|e b]; cbn [dep_step].
  - destruct (addDepend st t l) as [st' ok] eqn:E. destruct (addDepend_spec _ _ _ _ _ E) as [done [_ [Hb [Hd [Hf _]]]]].
    intros a b Hab. simpl in *. rewrite !Hf. apply Hd in Hab. destruct Hab as [Hab|[-> [Hin _]]]; [auto|symmetry; auto].
  - destruct (removeDepend st t (Some d)) as [st' ok] eqn:E. destruct ok.
    + apply (removeDepend_spec _ _ _ _ Hok) in E. destruct E as [_ [_ [Hd [Hf _]]]].
      intros a b Hab. simpl in *. rewrite !Hf. apply Hd in Hab. apply H; tauto.
    + simpl. unfold removeDepend in E. destruct (e_init (st t)); [inversion E; subst; exact H|].
      destruct (memb d (e_dep (st t))); simpl in E; [discriminate|]. inversion E; subst; exact H.
  - exact H.
  - destruct Ho as [Ed Es]. destruct Hok as [Hs _].
    intros a b Hab. unfold depends, groupElement, upd in *.
    destruct (Nat.eqb_spec a e); subst; simpl in *; [rewrite Ed in Hab; contradiction|].
    destruct (Nat.eqb_spec b e); subst; simpl in *; [|apply H; exact Hab].
    apply Hs in Hab. unfold precedes in Hab. rewrite Es in Hab. contradiction.
  - intros a c Hab. unfold depends, setInit, upd in *.
    destruct (Nat.eqb_spec a e), (Nat.eqb_spec c e); subst; simpl in *; auto; apply H; exact Hab.
Qed.
Lemma dep_run_same_parent h : forall st, edges_ok st -> same_parent st -> groups_before_edges st h -> same_parent (dep_run st h).
Proof.
  induction h as [|o h IH]; intros st Hok H Hg; [exact H|]. simpl in *. destruct Hg as [Ho Hg].
  apply IH; auto using dep_step_edges_ok, dep_step_same_parent.
Qed.
