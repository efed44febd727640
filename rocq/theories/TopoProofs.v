From Verif Require Import GraphModel GraphSpec.
From Coq Require Import Lia.
Local Open Scope nat_scope.

(** ** dec_all *)
Lemma dec_all_spec : forall l left left' ready,
  NoDup l -> dec_all left l = (left', ready) ->
  (forall x, left' x = if memb x l then (left x - 1)%Z else left x) /\
  ready = filter (fun x => (left x - 1 =? 0)%Z) l.
Proof.
  induction l as [|a l IH]; intros left left' ready Hnd H; simpl in H.
  - inversion H; subst. split; [intros; reflexivity|reflexivity].
  - inversion Hnd; subst.
    destruct (dec_all (upd left a (left a - 1)%Z) l) as [l2 rd] eqn:E.
    destruct (IH _ _ _ H3 E) as [Hl Hr]. inversion H; subst left' ready; clear H.
    split.
    + intros x. rewrite Hl. simpl. destruct (Nat.eqb_spec x a).
      * subst. rewrite upd_same. destruct (memb a l) eqn:M; [apply memb_in in M; contradiction|]. reflexivity.
      * rewrite upd_other by assumption. reflexivity.
    + assert (Er : rd = filter (fun x => (left x - 1 =? 0)%Z) l).
      { rewrite Hr. apply filter_ext_in. intros x Hx. rewrite upd_other; [reflexivity|]. intros E2; subst; contradiction. }
      simpl. rewrite Er. reflexivity.
Qed.

(** number of dependencies of [e] outside [R] *)
Definition out_of (g : graph) (R : list nat) (e : nat) : nat := length (filter (fun d => negb (memb d R)) (dep g e)).

Lemma filter_neg_length l R x : NoDup l -> ~ In x R ->
  length (filter (fun d => negb (memb d (R ++ [x]))) l) + (if memb x l then 1 else 0) =
  length (filter (fun d => negb (memb d R)) l).
Proof.
  intros Hnd Hx. induction l as [|a l IH]; simpl; [reflexivity|].
  inversion Hnd; subst. specialize (IH H2).
  assert (Ma : memb a (R ++ [x]) = memb a R || Nat.eqb a x).
  { unfold memb. rewrite existsb_app. simpl. rewrite orb_false_r. reflexivity. }
  rewrite Ma. destruct (Nat.eqb_spec x a).
  - subst a. rewrite Nat.eqb_refl, orb_true_r. simpl.
    assert (M : memb x R = false) by (apply memb_false; assumption). rewrite M. simpl.
    assert (M2 : memb x l = false) by (apply memb_false; assumption). rewrite M2 in IH. unfold memb in *. lia.
  - destruct (Nat.eqb_spec a x); [congruence|]. rewrite orb_false_r. simpl.
    destruct (memb a R); simpl; unfold memb in *; lia.
Qed.
Lemma filter_len_nil {A} (f : A -> bool) l : length (filter f l) = 0 <-> (forall x, In x l -> f x = false).
Proof.
  induction l as [|a l IH]; simpl; [split; intros; [contradiction|reflexivity]|].
  destruct (f a) eqn:E; simpl; split; intros H; try discriminate.
  - specialize (H a (or_introl eq_refl)). congruence.
  - intros x [Ex|Hx]; [subst; exact E|apply IH; assumption].
  - apply IH. intros; apply H; auto.
Qed.

Section Kahn.
Context (g : graph) (Hwf : wf g).

(** Kahn invariant: [R] processed, [Q] ready and waiting. *)
Record kinv (left : counters) (Q R : list nat) : Prop := {
  k_nd : NoDup (R ++ Q);
  k_in : incl (R ++ Q) (els g);
  k_left : forall e, In e (els g) -> left e = Z.of_nat (out_of g R e);
  k_ready : forall e, In e (els g) -> (In e (R ++ Q) <-> out_of g R e = 0);
  k_ord : forall d e, edge g d e -> In e R -> before R d e;
}.

Lemma out_zero R e : out_of g R e = 0 <-> incl (dep g e) R.
Proof.
  unfold out_of. rewrite filter_len_nil. split.
  - intros H d Hd. specialize (H d Hd). destruct (memb d R) eqn:M; [apply memb_in; exact M|discriminate].
  - intros H d Hd. rewrite (proj2 (memb_in d R) (H d Hd)). reflexivity.
Qed.

Lemma kinv_init : kinv (left0 g) (fronts g) [].
Proof.
  assert (Hout : forall e, out_of g [] e = length (dep g e)).
  { intros e. unfold out_of. replace (filter _ (dep g e)) with (dep g e); [reflexivity|].
    induction (dep g e) as [|a l IH]; simpl; [reflexivity|]. f_equal; exact IH. }
  constructor.
  - simpl. apply NoDup_filter, wf_els, Hwf.
  - simpl. intros e He. apply filter_In in He. tauto.
  - intros e He. unfold left0. rewrite Hout. reflexivity.
  - intros e He. simpl. unfold fronts. rewrite filter_In, Hout. destruct (dep g e); simpl; intuition; discriminate.
  - intros d e _ [].
Qed.

Lemma kinv_step left cur Q R left' ready :
  kinv left (cur :: Q) R -> dec_all left (succ g cur) = (left', ready) ->
  kinv left' (Q ++ ready) (R ++ [cur]).
Proof.
  intros K E. destruct K as [Knd Kin Kleft Kready Kord].
  assert (Hcur : In cur (els g)) by (apply Kin; apply in_or_app; right; left; reflexivity).
  destruct (wf_succ g Hwf cur Hcur) as [Hsnd Hsin].
  destruct (dec_all_spec _ _ _ _ Hsnd E) as [Hl Hr].
  pose proof Knd as Knd0.
  apply NoDup_app_iff in Knd. destruct Knd as [Knd1 [Knd2 Knd3]].
  inversion Knd2 as [|? ? HcQ HndQ]; subst.
  assert (HcR : ~ In cur R) by (intros H; apply (Knd3 cur H); left; reflexivity).
  assert (Hout : forall e, In e (els g) -> out_of g (R ++ [cur]) e + (if memb cur (dep g e) then 1 else 0) = out_of g R e).
  { intros e He. unfold out_of. apply filter_neg_length; [apply (wf_dep g Hwf e He)|exact HcR]. }
  assert (Hmem : forall e, In e (els g) -> memb cur (dep g e) = memb e (succ g cur)).
  { intros e He. destruct (memb cur (dep g e)) eqn:M1, (memb e (succ g cur)) eqn:M2; try reflexivity.
    - apply memb_in in M1. apply memb_false in M2. exfalso; apply M2. apply (wf_sym g Hwf); assumption.
    - apply memb_in in M2. apply memb_false in M1. exfalso; apply M1. apply (wf_sym g Hwf); assumption. }
  assert (Hnew : forall e, In e (filter (fun x => (left x - 1 =? 0)%Z) (succ g cur)) <->
                 In e (els g) /\ ~ In e (R ++ cur :: Q) /\ out_of g (R ++ [cur]) e = 0).
  { intros e. rewrite filter_In. split.
    - intros [Hs Hz]. assert (He := Hsin e Hs). specialize (Hout e He). rewrite (Hmem e He), (proj2 (memb_in _ _) Hs) in Hout.
      rewrite (Kleft e He) in Hz. split; [exact He|]. rewrite (Kready e He). lia.
    - intros [He [Hn Hz]]. specialize (Hout e He). rewrite (Kready e He) in Hn.
      destruct (memb cur (dep g e)) eqn:M; [|lia]. rewrite (Hmem e He) in M. apply memb_in in M.
      split; [exact M|]. rewrite (Kleft e He). lia. }
  constructor.
  - rewrite <- app_assoc. simpl. change (cur :: Q ++ filter (fun x => (left x - 1 =? 0)%Z) (succ g cur)) with ((cur :: Q) ++ filter (fun x => (left x - 1 =? 0)%Z) (succ g cur)).
    rewrite app_assoc. apply NoDup_app_iff. split; [exact Knd0|]. split; [apply NoDup_filter; exact Hsnd|].
    intros x Hx Hf. apply Hnew in Hf. tauto.
  - intros x Hx. rewrite !in_app_iff in Hx. destruct Hx as [[Hx|[Hx|[]]]|[Hx|Hx]].
    + apply Kin, in_or_app; auto.
    + subst; exact Hcur.
    + apply Kin, in_or_app; right; right; exact Hx.
    + apply Hnew in Hx. tauto.
  - intros e He. rewrite Hl, (Kleft e He), <- (Hmem e He). specialize (Hout e He). destruct (memb cur (dep g e)); lia.
  - intros e He. specialize (Hout e He). split.
    + intros H. rewrite !in_app_iff in H. destruct H as [[H|[H|[]]]|[H|H]].
      * assert (In e (R ++ cur :: Q)) by (apply in_or_app; auto). rewrite (Kready e He) in H0. lia.
      * subst. assert (In e (R ++ e :: Q)) by (apply in_or_app; right; left; reflexivity). rewrite (Kready e He) in H. lia.
      * assert (In e (R ++ cur :: Q)) by (apply in_or_app; right; right; exact H). rewrite (Kready e He) in H0. lia.
      * apply Hnew in H. tauto.
    + intros Hz. destruct (in_dec_nat e (R ++ cur :: Q)) as [Hin|Hn].
      * rewrite !in_app_iff in *. simpl in *. intuition.
      * rewrite !in_app_iff. right; right. apply Hnew. auto.
  - intros d e Hed He. apply in_app_or in He. destruct He as [He|[He|[]]].
    + apply before_app, Kord; assumption.
    + subst e. apply before_last. destruct Hed as [He Hd].
      assert (Hz : In cur (R ++ cur :: Q)) by (apply in_or_app; right; left; reflexivity).
      apply (Kready cur He) in Hz. apply out_zero in Hz. auto.
Qed.

Lemma topo_loop_inv : forall fuel left Q R,
  kinv left Q R -> length (els g) <= fuel + length R ->
  exists r left', topo_loop g fuel left Q R = Some r /\ kinv left' [] r.
Proof.
  induction fuel as [|f IH]; intros left Q R K Hf.
  - destruct Q as [|c Q].
    + exists R, left. split; [reflexivity|exact K].
    + exfalso. pose proof (NoDup_incl_length (k_nd _ _ _ K) (k_in _ _ _ K)) as Hlen. rewrite app_length in Hlen. simpl in Hlen. lia.
  - destruct Q as [|c Q].
    + exists R, left. split; [reflexivity|exact K].
    + simpl. destruct (dec_all left (succ g c)) as [left' ready] eqn:E.
      apply IH; [eapply kinv_step; eassumption|]. rewrite app_length. simpl. lia.
Qed.

Lemma kinv_end_complete left R : kinv left [] R -> acyclic g -> incl (els g) R.
Proof.
  intros K Ha x Hx. destruct (in_dec_nat x R) as [H|H]; [exact H|exfalso].
  set (L := filter (fun e => negb (memb e R)) (els g)).
  assert (HL : forall e, In e L <-> In e (els g) /\ ~ In e R).
  { intros e. unfold L. rewrite filter_In. destruct (memb e R) eqn:M; simpl.
    - apply memb_in in M. intuition discriminate.
    - apply memb_false in M. tauto. }
  destruct (no_minimal_cycle (edge g) L x) as [c [_ Hc]].
  - apply HL; auto.
  - intros e He. apply HL in He. destruct He as [He Hn].
    assert (Hz : out_of g R e <> 0).
    { intros Hz. apply (k_ready _ _ _ K e He) in Hz. rewrite app_nil_r in Hz. contradiction. }
    unfold out_of in Hz.
    destruct (filter (fun d => negb (memb d R)) (dep g e)) as [|d l] eqn:E; [simpl in Hz; lia|].
    assert (Hd : In d (filter (fun d => negb (memb d R)) (dep g e))) by (rewrite E; left; reflexivity).
    apply filter_In in Hd. destruct Hd as [Hd Hm].
    exists d. split; [|split; assumption]. apply HL. split; [apply (wf_dep g Hwf e He); exact Hd|].
    intros Hr. apply memb_in in Hr. rewrite Hr in Hm. discriminate.
  - exact (Ha c Hc).
Qed.

Lemma order_path (l : list nat) : NoDup l -> (forall d e, edge g d e -> before l d e) ->
  forall d e, path g d e -> before l d e.
Proof. intros Hnd H d e Hp. induction Hp; [auto|eauto using before_trans]. Qed.

Lemma topo_order_acyclic l : topo_order g l -> acyclic g.
Proof.
  intros [Hp Ho] e He.
  assert (Hnd : NoDup l) by (eapply Permutation_NoDup; [symmetry; exact Hp|apply Hwf]).
  pose proof (order_path l Hnd Ho e e He) as Hb. eapply before_asym; eassumption.
Qed.

Lemma getTopo_total : exists r left', getTopo g = Some r /\ kinv left' [] r.
Proof. apply topo_loop_inv; [apply kinv_init|simpl; lia]. Qed.

Lemma kinv_full_topo left R : kinv left [] R -> length R = length (els g) -> topo_order g R.
Proof.
  intros K Hlen. pose proof (k_nd _ _ _ K) as Hnd. rewrite app_nil_r in Hnd.
  assert (Hin : incl R (els g)) by (intros x Hx; apply (k_in _ _ _ K); rewrite app_nil_r; exact Hx).
  assert (Hin2 : incl (els g) R) by (apply incl_length_eq; auto; apply Hwf).
  split.
  - apply NoDup_Permutation; [exact Hnd|apply Hwf|]. intros x; split; auto.
  - intros d e He. apply (k_ord _ _ _ K d e He). apply Hin2, He.
Qed.

Lemma topo_setup_spec :
  (acyclic g -> exists l, topo_setup g = Some (Some l) /\ topo_order g l) /\
  (~ acyclic g -> topo_setup g = Some None).
Proof.
  destruct getTopo_total as [r [left' [E K]]]. unfold topo_setup. rewrite E.
  pose proof (k_nd _ _ _ K) as Hnd. rewrite app_nil_r in Hnd.
  assert (Hin : incl r (els g)) by (intros x Hx; apply (k_in _ _ _ K); rewrite app_nil_r; exact Hx).
  split.
  - intros Ha. pose proof (kinv_end_complete _ _ K Ha) as Hc.
    assert (Hlen : length r = length (els g)).
    { apply Nat.le_antisymm; [apply NoDup_incl_length; assumption|apply NoDup_incl_length; [apply Hwf|exact Hc]]. }
    exists r. rewrite (proj2 (Nat.eqb_eq _ _) Hlen). split; [reflexivity|]. eapply kinv_full_topo; eassumption.
  - intros Hn. destruct (Nat.eqb_spec (length r) (length (els g))) as [Hlen|Hlen]; [|reflexivity].
    exfalso. apply Hn. apply (topo_order_acyclic r). eapply kinv_full_topo; eassumption.
Qed.

Lemma isDag_spec : (acyclic g -> isDag g = Some true) /\ (~ acyclic g -> isDag g = Some false).
Proof.
  destruct topo_setup_spec as [H1 H2]. unfold topo_setup, isDag in *. destruct (getTopo g) as [r|]; split; intros H.
  - destruct (H1 H) as [l [E _]]. destruct (Nat.eqb (length r) (length (els g))); [reflexivity|discriminate].
  - specialize (H2 H). destruct (Nat.eqb (length r) (length (els g))); [discriminate|reflexivity].
  - destruct (H1 H) as [l [E _]]; discriminate.
  - specialize (H2 H); discriminate.
Qed.

(** ** Static layering *)

(** Expanding a whole layer is expanding its elements one by one. *)
Lemma layer_next_inv : forall layer left R ready left' next,
  kinv left (layer ++ ready) R -> layer_next g left layer = (left', next) ->
  kinv left' (ready ++ next) (R ++ layer).
Proof.
  induction layer as [|x layer IH]; intros left R ready left' next K E; simpl in E.
  - inversion E; subst. rewrite !app_nil_r. exact K.
  - destruct (dec_all left (succ g x)) as [l1 r1] eqn:E1. destruct (layer_next g l1 layer) as [l2 r2] eqn:E2.
    inversion E; subst.
    assert (K1 : kinv l1 ((layer ++ ready) ++ r1) (R ++ [x])) by (eapply kinv_step; [exact K|exact E1]).
    rewrite <- app_assoc in K1.
    pose proof (IH _ _ _ _ _ K1 E2) as K2.
    rewrite <- app_assoc in K2. rewrite <- app_assoc in K2. simpl in K2. exact K2.
Qed.

Lemma layer_loop_inv : forall fuel left cur mat,
  kinv left cur (concat mat) ->
  (forall i j li d e, nth_error mat j = Some li -> In e li -> edge g d e -> i = j -> exists k lk, k < j /\ nth_error mat k = Some lk /\ In d lk) ->
  length (els g) <= fuel + length (concat mat) ->
  exists m left', layer_loop g fuel left cur mat = Some m /\ kinv left' [] (concat m) /\
    (forall j lj d e, nth_error m j = Some lj -> In e lj -> edge g d e -> exists k lk, k < j /\ nth_error m k = Some lk /\ In d lk).
Proof.
  induction fuel as [|f IH]; intros left cur mat K Hord Hf.
  - destruct cur as [|c cur].
    + exists mat, left. simpl. split; [reflexivity|split; [exact K|]]. intros; eapply Hord; eauto.
    + exfalso. pose proof (NoDup_incl_length (k_nd _ _ _ K) (k_in _ _ _ K)) as Hlen. rewrite app_length in Hlen. simpl in Hlen. lia.
  - destruct cur as [|c cur].
    + exists mat, left. simpl. split; [reflexivity|split; [exact K|]]. intros; eapply Hord; eauto.
    + cbn [layer_loop]. destruct (layer_next g left (c :: cur)) as [left' next] eqn:E.
      assert (K' : kinv left' next (concat (mat ++ [c :: cur]))).
      { rewrite concat_app. cbn [concat]. rewrite app_nil_r.
        assert (K0 : kinv left ((c :: cur) ++ []) (concat mat)) by (rewrite app_nil_r; exact K).
        pose proof (layer_next_inv _ _ _ _ _ _ K0 E) as K1. exact K1. }
      apply IH; [exact K'| |].
      * intros i j li d e Hj He Hed _.
        destruct (Nat.lt_ge_cases j (length mat)) as [Hlt|Hge].
        -- rewrite nth_error_app1 in Hj by assumption.
           destruct (Hord j j li d e Hj He Hed eq_refl) as [k [lk [Hk [Hnk Hd]]]].
           exists k, lk. repeat split; auto. rewrite nth_error_app1 by lia. exact Hnk.
        -- rewrite nth_error_app2 in Hj by assumption.
           destruct (j - length mat) as [|n] eqn:Ej; simpl in Hj; [|destruct n; discriminate].
           inversion Hj; subst li.
           assert (Hin : In e (concat mat ++ c :: cur)) by (apply in_or_app; right; exact He).
           destruct Hed as [Hee Hed].
           apply (k_ready _ _ _ K e Hee) in Hin. apply out_zero in Hin.
           specialize (Hin d Hed). apply in_concat in Hin. destruct Hin as [lk [Hlk Hdk]].
           apply In_nth_error in Hlk. destruct Hlk as [k Hk].
           assert (k < length mat) by (apply nth_error_Some; congruence).
           exists k, lk. split; [lia|]. split; [rewrite nth_error_app1 by assumption; exact Hk|exact Hdk].
      * rewrite concat_app, app_length. cbn. lia.
Qed.

Lemma static_setup_spec :
  (acyclic g -> exists m, static_setup g = Some (Some m) /\ layering g m) /\
  (~ acyclic g -> static_setup g = Some None).
Proof.
  destruct (layer_loop_inv (length (els g)) (left0 g) (fronts g) []) as [m [left' [E [K Hord]]]].
  - simpl. apply kinv_init.
  - intros i j li d e Hj. destruct j; discriminate.
  - simpl; lia.
  - unfold static_setup. rewrite E.
    pose proof (k_nd _ _ _ K) as Hnd. rewrite app_nil_r in Hnd.
    assert (Hin : incl (concat m) (els g)) by (intros x Hx; apply (k_in _ _ _ K); rewrite app_nil_r; exact Hx).
    split.
    + intros Ha. pose proof (kinv_end_complete _ _ K Ha) as Hc.
      assert (Hlen : length (concat m) = length (els g)).
      { apply Nat.le_antisymm; [apply NoDup_incl_length; assumption|apply NoDup_incl_length; [apply Hwf|exact Hc]]. }
      exists m. rewrite (proj2 (Nat.eqb_eq _ _) Hlen). split; [reflexivity|]. split.
      * apply (kinv_full_topo _ _ K Hlen).
      * intros d e He.
        assert (In e (concat m)) by (apply Hc, He).
        apply in_concat in H. destruct H as [lj [Hlj Hej]].
        apply In_nth_error in Hlj. destruct Hlj as [j Hj].
        destruct (Hord j lj d e Hj Hej He) as [k [lk [Hk [Hnk Hd]]]].
        exists k, j, lk, lj. auto.
    + intros Hn. destruct (Nat.eqb_spec (length (concat m)) (length (els g))) as [Hlen|Hlen]; [|reflexivity].
      exfalso. apply Hn. apply (topo_order_acyclic (concat m)). eapply kinv_full_topo; eassumption.
Qed.
End Kahn.

(** ** Sequential runs *)
Lemma acyclic_dec g : wf g -> acyclic g \/ ~ acyclic g.
Proof.
  intros Hwf. destruct (isDag_spec g Hwf) as [H1 H2]. destruct (getTopo_total g Hwf) as [r [left' [E K]]].
  destruct (Nat.eqb_spec (length r) (length (els g))) as [Hl|Hl].
  - left. eapply topo_order_acyclic; [exact Hwf|]. eapply kinv_full_topo; eassumption.
  - right. intros Ha. specialize (H1 Ha). unfold isDag in H1. rewrite E in H1. apply Nat.eqb_neq in Hl. rewrite Hl in H1. discriminate.
Qed.
