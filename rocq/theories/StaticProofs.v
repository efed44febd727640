From Verif Require Import GraphModel GraphSpec TopoProofs StaticModel StatusProofs.
From Coq Require Import Lia.
Local Open Scope nat_scope.

Definition cnt (e : nat) (l : list nat) : nat := count_occ Nat.eq_dec l e.
Arguments cnt : simpl never.
Lemma cnt_app e l1 l2 : cnt e (l1 ++ l2) = cnt e l1 + cnt e l2.
Proof. apply count_occ_app. Qed.
Lemma cnt_cons e x l : cnt e (x :: l) = b2n (Nat.eqb x e) + cnt e l.
Proof. unfold cnt; simpl. destruct (Nat.eq_dec x e), (Nat.eqb_spec x e); simpl; congruence || lia. Qed.
Lemma cnt_in e l : In e l <-> 0 < cnt e l.
Proof. unfold cnt. rewrite (count_occ_In Nat.eq_dec). lia. Qed.
Lemma cnt_zero e l : ~ In e l -> cnt e l = 0.
Proof. intros H. destruct (cnt e l) eqn:E; [reflexivity|]. exfalso. apply H, cnt_in. lia. Qed.
Lemma cnt_nodup l : NoDup l <-> forall e, cnt e l <= 1.
Proof. unfold cnt. apply NoDup_count_occ. Qed.

Lemma remove1_cnt e : forall l l', remove1 e l = Some l' -> forall x, cnt x l = cnt x l' + b2n (Nat.eqb e x).
Proof.
  induction l as [|a l IH]; intros l' H x; simpl in H; [discriminate|].
  destruct (Nat.eqb_spec a e).
  - inversion H; subst. rewrite cnt_cons. lia.
  - destruct (remove1 e l) as [l0|]; simpl in H; [|discriminate]. inversion H; subst.
    rewrite !cnt_cons. rewrite (IH l0 eq_refl x). lia.
Qed.
Lemma remove1_some e l : In e l -> exists l', remove1 e l = Some l'.
Proof.
  induction l as [|a l IH]; simpl; [contradiction|]. intros H. destruct (Nat.eqb_spec a e); [eauto|].
  destruct H as [H|H]; [congruence|]. destruct (IH H) as [l' ->]. simpl; eauto.
Qed.
Lemma lookup_in e l v : lookup e l = Some v -> In (e, v) l.
Proof.
  induction l as [|[x s] l IH]; simpl; [discriminate|]. destruct (Nat.eqb_spec x e); [intros H; inversion H; subst; auto|auto].
Qed.
Lemma lookup_some e l : In e (map fst l) -> exists v, lookup e l = Some v.
Proof.
  induction l as [|[x s] l IH]; simpl; [contradiction|]. destruct (Nat.eqb_spec x e); [eauto|]. intros [H|H]; [congruence|auto].
Qed.

Lemma starts_app t1 t2 : starts (t1 ++ t2) = starts t1 ++ starts t2.
Proof. apply flat_map_app. Qed.
Lemma finishes_app t1 t2 : finishes (t1 ++ t2) = finishes t1 ++ finishes t2.
Proof. apply flat_map_app. Qed.
Lemma in_starts e tr : In e (starts tr) <-> In (GStart e) tr.
Proof.
  unfold starts. rewrite in_flat_map. split.
  - intros [ev [H1 H2]]. destruct ev; simpl in H2; [destruct H2 as [->|[]]; exact H1|contradiction].
  - intros H. exists (GStart e). simpl; auto.
Qed.
Lemma in_finishes e s tr : In (e, s) (finishes tr) <-> In (GFinish e s) tr.
Proof.
  unfold finishes. rewrite in_flat_map. split.
  - intros [ev [H1 H2]]. destruct ev; simpl in H2; [contradiction|]. destruct H2 as [E|[]]. inversion E; subst. exact H1.
  - intros H. exists (GFinish e s). simpl; auto.
Qed.

(** Appending an event to a trace. *)
Lemma starts_after_deps_snoc g tr ev : starts_after_deps g tr ->
  (forall e, ev = GStart e -> forall d, In d (dep g e) -> exists r, In (GFinish d r) tr /\ (0 <= code r)%Z) ->
  starts_after_deps g (tr ++ [ev]).
Proof.
  intros H Hev t1 e t2 E.
  destruct t2 as [|x t2] using rev_ind.
  - apply app_inj_tail in E. destruct E as [-> ->]. apply Hev; reflexivity.
  - clear IHt2. change (GStart e :: t2 ++ [x]) with ((GStart e :: t2) ++ [x]) in E. rewrite app_assoc in E.
    apply app_inj_tail in E. destruct E as [E ->]. eapply H; exact E.
Qed.

Lemma app_prefix {A} (l1 l2 a b : list A) x : l1 ++ l2 = a ++ b -> In x l1 -> ~ In x a -> exists t, l1 = a ++ t.
Proof.
  revert a. induction l1 as [|y l1 IH]; intros a E Hin Hn; [contradiction|].
  destruct a as [|z a]; [exists (y :: l1); reflexivity|]. simpl in E. injection E as -> E.
  destruct Hin as [->|Hin]; [exfalso; apply Hn; left; reflexivity|].
  destruct (IH a E Hin) as [t ->]; [intros H; apply Hn; right; exact H|]. exists t; reflexivity.
Qed.

(** Weights of the caller's actions for an element. *)
Definition w_start (e : nat) (a : sact) : nat := match a with ACommit x | AMacroStart x => b2n (Nat.eqb x e) | _ => 0 end.
Definition w_ms (e : nat) (a : sact) : nat := match a with AMacroStart x => b2n (Nat.eqb x e) | _ => 0 end.
Definition w_mf (e : nat) (a : sact) : nat := match a with AMacroFinish x => b2n (Nat.eqb x e) | _ => 0 end.
Definition w_get (e : nat) (a : sact) : nat := match a with AGet x => b2n (Nat.eqb x e) | _ => 0 end.
Definition w_com (e : nat) (a : sact) : nat := match a with ACommit x => b2n (Nat.eqb x e) | _ => 0 end.

Lemma sumf_map_const {A} (f : A -> nat) (h : nat -> A) l : (forall x, f (h x) = 0) -> sumf f (map h l) = 0.
Proof. intros H. rewrite sumf_map. apply sumf_zero. auto. Qed.
Lemma sumf_flat_map {A B} (f : B -> nat) (h : A -> list B) l : sumf f (flat_map h l) = sumf (fun x => sumf f (h x)) l.
Proof. induction l as [|x l IH]; simpl; [reflexivity|]. rewrite sumf_app, IH. reflexivity. Qed.
Lemma sumf_cnt e l : sumf (fun x => b2n (Nat.eqb x e)) l = cnt e l.
Proof. induction l as [|x l IH]; simpl; [reflexivity|]. rewrite cnt_cons, IH. reflexivity. Qed.
Lemma cnt_filter e f l : cnt e (filter f l) = if f e then cnt e l else 0.
Proof.
  induction l as [|x l IH]; simpl; [destruct (f e); reflexivity|].
  rewrite (cnt_cons e x l). destruct (Nat.eqb_spec x e).
  - subst x. destruct (f e) eqn:E; [rewrite cnt_cons, IH, Nat.eqb_refl; reflexivity|exact IH].
  - simpl. destruct (f x); [rewrite cnt_cons, IH|exact IH]. destruct (Nat.eqb_spec x e); [contradiction|reflexivity].
Qed.

Section Static.
Context (inl : nat -> bool).

Ltac layer_tac := unfold layer_prog; rewrite !sumf_app, !sumf_map, sumf_flat_map; simpl;
  rewrite ?sumf_plus.

Lemma layer_w e arr :
  sumf (w_start e) (layer_prog inl arr) = cnt e arr /\
  sumf (w_ms e) (layer_prog inl arr) = (if inl e then cnt e arr else 0) /\
  sumf (w_mf e) (layer_prog inl arr) = (if inl e then cnt e arr else 0) /\
  sumf (w_get e) (layer_prog inl arr) = (if inl e then 0 else cnt e arr) /\
  sumf (w_com e) (layer_prog inl arr) = (if inl e then 0 else cnt e arr).
Proof.
  assert (Z : forall {A} (l : list A), sumf (fun _ => 0) l = 0) by (intros; apply sumf_zero; auto).
  assert (P0 : forall {A} (f : A -> nat) l, sumf (fun x => f x + 0) l = sumf f l) by (intros; apply sumf_ext; intros; lia).
  assert (P1 : forall {A} (f : A -> nat) l, sumf (fun x => 0 + f x) l = sumf f l) by (intros; apply sumf_ext; intros; lia).
  unfold layer_prog; rewrite !sumf_app, !sumf_map, !sumf_flat_map. cbn [sumf w_start w_ms w_mf w_get w_com].
  repeat split; rewrite ?P1, ?P0, ?Z, ?sumf_cnt, ?cnt_filter; destruct (inl e); cbn [negb sumf w_start]; lia.
Qed.
Lemma prog_w e mat :
  sumf (w_start e) (static_prog inl mat) = cnt e (concat mat) /\
  sumf (w_ms e) (static_prog inl mat) = (if inl e then cnt e (concat mat) else 0) /\
  sumf (w_mf e) (static_prog inl mat) = (if inl e then cnt e (concat mat) else 0) /\
  sumf (w_get e) (static_prog inl mat) = (if inl e then 0 else cnt e (concat mat)) /\
  sumf (w_com e) (static_prog inl mat) = (if inl e then 0 else cnt e (concat mat)).
Proof.
  induction mat as [|arr mat IH]; simpl.
  - cbn. destruct (inl e); auto.
  - unfold static_prog in *; simpl. rewrite !sumf_app, !cnt_app.
    destruct (layer_w e arr) as [H1 [H2 [H3 [H4 H5]]]]. destruct IH as [I1 [I2 [I3 [I4 I5]]]].
    destruct (inl e); lia.
Qed.

Context (g : graph) (mat : list (list nat)) (Hwf : wf g) (Hlay : layering g mat).

Lemma mat_nodup : NoDup (concat mat).
Proof. eapply Permutation_NoDup; [symmetry; apply Hlay|apply Hwf]. Qed.

Definition prog := static_prog inl mat.
Definition joined (e : nat) (c : list sact) : Prop := In (AGet e) c \/ In (AMacroFinish e) c.

Record sinv (s : sst) (con : list sact) : Prop := {
  si_prog : prog = con ++ s_main s;
  si_cons : forall e, sumf (w_start e) (s_main s) + cnt e (s_queue s) + cnt e (starts (s_tr s)) = cnt e (concat mat);
  si_fin : forall e, cnt e (starts (s_tr s)) + sumf (w_ms e) (s_main s) =
                     cnt e (s_running s) + sumf (w_mf e) (s_main s) + cnt e (map fst (finishes (s_tr s)));
  si_futs : forall e v, In (e, v) (s_futs s) -> In (GFinish e v) (s_tr s);
  si_futs2 : forall e, inl e = false -> cnt e (map fst (finishes (s_tr s))) = cnt e (map fst (s_futs s));
  si_inl : forall e, (0 < cnt e (s_queue s) \/ 0 < cnt e (s_running s)) -> inl e = false;
  si_join : forall e, joined e con -> exists v, In (GFinish e v) (s_tr s) /\ ((code v < 0)%Z -> (code (s_stat s) < 0)%Z);
  si_chk : forall c1 c2 e, con = c1 ++ ACheck :: c2 -> joined e c1 -> exists v, In (GFinish e v) (s_tr s) /\ (0 <= code v)%Z;
  si_stat : s_stat s = st_default \/
            ((code (s_stat s) < 0)%Z /\ exists e, In (GFinish e (s_stat s)) (s_tr s) /\ joined e con);
  si_deps : starts_after_deps g (s_tr s);
  si_out : match s_out s with
           | None => True
           | Some (EReturn v) => v = s_stat s /\
               ((s_main s = [] /\ v = st_default) \/ ((code v < 0)%Z /\ exists m, s_main s = ACheck :: m))
           | Some (EThrow m) => (code (s_stat s) = STATUS_CRASH) /\ m = info (s_stat s) /\ exists m', s_main s = ACheck :: m'
           end;
}.

Lemma joined_app e c1 c2 : joined e (c1 ++ c2) <-> joined e c1 \/ joined e c2.
Proof. unfold joined. rewrite !in_app_iff. tauto. Qed.

(** The program after its first ACheck barrier: an element's start action consumed means every earlier layer was checked. *)
Lemma layer_joined arr e : In e arr -> exists c, layer_prog inl arr = c ++ [ACheck] /\ joined e c.
Proof.
  intros H. unfold layer_prog. eexists. split; [rewrite !app_assoc; reflexivity|].
  unfold joined. rewrite !in_app_iff. destruct (inl e) eqn:E.
  - right. left; right. apply in_flat_map. exists e. split; [apply filter_In; auto|]. simpl; auto.
  - left. right. apply in_map, filter_In. rewrite E. auto.
Qed.

Lemma w_start_in e l : 0 < sumf (w_start e) l -> exists a, In a l /\ (a = ACommit e \/ a = AMacroStart e).
Proof.
  intros H. apply sumf_pos in H. destruct H as [a [Ha Hw]]. exists a. split; [exact Ha|].
  destruct a; simpl in Hw; try lia; destruct (Nat.eqb_spec e0 e); simpl in Hw; subst; auto; lia.
Qed.
Lemma w_start_notin e l : sumf (w_start e) l = 0 -> ~ In (ACommit e) l /\ ~ In (AMacroStart e) l.
Proof.
  intros H. split; intros Hin; apply (sumf_in (w_start e)) in Hin; simpl in Hin; rewrite Nat.eqb_refl in Hin; simpl in Hin; lia.
Qed.

Lemma barrier con main e i j li lj d :
  prog = con ++ main -> 0 < sumf (w_start e) con ->
  nth_error mat i = Some li -> nth_error mat j = Some lj -> i < j -> In d li -> In e lj ->
  exists c1 c2, con = c1 ++ ACheck :: c2 /\ joined d c1.
Proof.
  intros Hp He Hi Hj Hij Hd He2.
  apply nth_error_split in Hi. destruct Hi as [m1 [m2 [Em Hm1]]].
  assert (Hj2 : In lj m2).
  { rewrite Em in Hj. rewrite nth_error_app2 in Hj by lia. destruct (j - length m1) as [|k] eqn:Ek; [lia|]. simpl in Hj.
    eapply nth_error_In; exact Hj. }
  destruct (layer_joined li d Hd) as [c [Ec Hjc]].
  assert (Hpre : prog = (static_prog inl m1 ++ c ++ [ACheck]) ++ static_prog inl m2).
  { unfold prog, static_prog. rewrite Em, flat_map_app. simpl. rewrite Ec, <- !app_assoc. reflexivity. }
  assert (Hnd := mat_nodup). rewrite Em, concat_app in Hnd. simpl in Hnd.
  assert (Hz : sumf (w_start e) (static_prog inl m1 ++ c ++ [ACheck]) = 0).
  { rewrite <- Ec, sumf_app. destruct (prog_w e m1) as [-> _]. destruct (layer_w e li) as [-> _].
    apply (proj1 (cnt_nodup _)) with (e := e) in Hnd. rewrite !cnt_app in Hnd.
    assert (0 < cnt e (concat m2)) by (apply cnt_in, in_concat; eauto). lia. }
  destruct (w_start_in _ _ He) as [a [Ha Hae]].
  destruct (w_start_notin _ _ Hz) as [N1 N2].
  rewrite Hp in Hpre.
  destruct (app_prefix _ _ _ _ a Hpre Ha) as [t Et]; [destruct Hae; subst; assumption|].
  exists (static_prog inl m1 ++ c), t. split.
  - rewrite Et, <- !app_assoc. reflexivity.
  - apply joined_app; auto.
Qed.

Lemma sinv_started s con e : sinv s con -> 0 < cnt e (s_queue s) + cnt e (starts (s_tr s)) -> 0 < sumf (w_start e) con.
Proof.
  intros I H. pose proof (si_cons _ _ I e) as Hc. pose proof (f_equal (sumf (w_start e)) (si_prog _ _ I)) as Hp.
  rewrite sumf_app in Hp. unfold prog in Hp. destruct (prog_w e mat) as [Hw _]. lia.
Qed.

Lemma sinv_deps_of s con e : sinv s con -> 0 < sumf (w_start e) con ->
  forall d, In d (dep g e) -> exists r, In (GFinish d r) (s_tr s) /\ (0 <= code r)%Z.
Proof.
  intros I He d Hd.
  assert (Hin : In e (concat mat)).
  { apply cnt_in. pose proof (f_equal (sumf (w_start e)) (si_prog _ _ I)) as Hp.
    rewrite sumf_app in Hp. unfold prog in Hp. destruct (prog_w e mat) as [Hw _]. lia. }
  assert (Hels : In e (els g)) by (eapply Permutation_in; [apply Hlay|exact Hin]).
  destruct (proj2 Hlay d e) as [i [j [li [lj [Hi [Hj [Hij [Hdi Hej]]]]]]]]; [split; assumption|].
  destruct (barrier _ _ _ _ _ _ _ _ (si_prog _ _ I) He Hi Hj Hij Hdi Hej) as [c1 [c2 [Ec Hjc]]].
  eapply (si_chk _ _ I); eassumption.
Qed.

Lemma sinv_init : sinv (s_init inl mat) [].
Proof.
  constructor.
  - reflexivity.
  - intros e. destruct (prog_w e mat) as [H1 _]. simpl. rewrite H1. change (cnt e []) with 0. lia.
  - intros e. destruct (prog_w e mat) as [_ [H1 [H2 _]]]. simpl. rewrite H1, H2. change (cnt e []) with 0. lia.
  - intros e v [].
  - intros e _. reflexivity.
  - intros e [H|H]; simpl in H; change (cnt e []) with 0 in H; lia.
  - intros e [[]|[]].
  - intros c1 c2 e E. destruct c1; discriminate.
  - left; reflexivity.
  - intros t1 e t2 E. destruct t1; discriminate.
  - exact I.
Qed.

Lemma in_snoc {A} (x y : A) l : In x l -> In x (l ++ [y]).
Proof. intros H; apply in_or_app; auto. Qed.

Ltac snoc_ex := match goal with H : exists v, _ |- _ => destruct H as [? [? ?]] end; eexists; split; [apply in_snoc; eassumption|auto].

Lemma stat_plus a v : (a = st_default \/ (code a < 0)%Z) ->
  ((code v < 0)%Z -> (code (st_plus a v) < 0)%Z) /\ ((code a < 0)%Z -> (code (st_plus a v) < 0)%Z) /\
  ((st_plus a v = a) \/ (a = st_default /\ st_plus a v = v /\ (code v < 0)%Z)).
Proof.
  intros Ha. destruct (isErr a) eqn:E.
  - rewrite st_plus_err by assumption. apply isErr_code in E. auto.
  - assert (a = st_default) by (destruct Ha as [->|Ha]; [reflexivity|apply isErr_code in Ha; congruence]). subst a.
    destruct (isErr v) eqn:Ev.
    + rewrite st_plus_take by (assumption || reflexivity). apply isErr_code in Ev. cbn. intuition.
    + rewrite st_plus_noterr by assumption. apply isErr_false in Ev. cbn. repeat split; intros; try lia. auto.
Qed.

Lemma join_step con a e : joined e (con ++ [a]) -> joined e con \/ a = AGet e \/ a = AMacroFinish e.
Proof. rewrite joined_app. unfold joined. simpl. tauto. Qed.

Lemma chk_snoc con a c1 c2 : con ++ [a] = c1 ++ ACheck :: c2 ->
  (exists c2', con = c1 ++ ACheck :: c2') \/ (a = ACheck /\ c1 = con).
Proof.
  destruct c2 as [|x c2] using rev_ind.
  - intros E. apply app_inj_tail in E. destruct E as [-> ->]. right; auto.
  - intros E. change (ACheck :: c2 ++ [x]) with ((ACheck :: c2) ++ [x]) in E. rewrite app_assoc in E.
    apply app_inj_tail in E. destruct E as [-> _]. left; eauto.
Qed.

Lemma sinv_step s con l s' : sinv s con -> sstep s l = Some s' -> exists con', sinv s' con'.
Proof.
  intros I H. pose proof I as I0. destruct I as [Ip Ic If Ifu Ifu2 Iin Ij Ich Ist Id Io].
  assert (Hst : s_stat s = st_default \/ (code (s_stat s) < 0)%Z) by (destruct Ist as [E|[E _]]; auto).
  destruct l as [r|e|e r]; simpl in H.
  - destruct (s_out s) eqn:Eo; [discriminate|].
    destruct (s_main s) as [|a m] eqn:Em.
    + inversion H; subst; clear H. exists con. constructor; simpl; auto.
      split; [reflexivity|]. left. split; [reflexivity|].
      destruct Ist as [E|[E [f [Hf Hj]]]]; [exact E|exfalso].
      rewrite app_nil_r in Ip.
      assert (Hin : In f (concat mat)).
      { destruct Hj as [Hj|Hj].
        - apply (sumf_in (w_get f)) in Hj. simpl in Hj. rewrite Nat.eqb_refl in Hj. simpl in Hj.
          rewrite <- Ip in Hj. unfold prog in Hj. destruct (prog_w f mat) as [_ [_ [_ [Hg _]]]]. rewrite Hg in Hj. apply cnt_in. destruct (inl f); lia.
        - apply (sumf_in (w_mf f)) in Hj. simpl in Hj. rewrite Nat.eqb_refl in Hj. simpl in Hj.
          rewrite <- Ip in Hj. unfold prog in Hj. destruct (prog_w f mat) as [_ [_ [Hg _]]]. rewrite Hg in Hj. apply cnt_in. destruct (inl f); lia. }
      apply in_concat in Hin. destruct Hin as [lf [Hlf Hff]].
      apply in_split in Hlf. destruct Hlf as [m1 [m2 Emat]].
      destruct (layer_joined lf f Hff) as [c [Ec Hjc]].
      assert (Econ : con = (static_prog inl m1 ++ c) ++ ACheck :: static_prog inl m2).
      { rewrite <- Ip. unfold prog, static_prog. rewrite Emat, flat_map_app. simpl. rewrite Ec, <- !app_assoc. reflexivity. }
      assert (Hc1 : joined f (static_prog inl m1 ++ c)) by (apply joined_app; auto).
      destruct (Ich _ _ f Econ Hc1) as [v [Hv Hv0]].
      assert (Hu : cnt f (map fst (finishes (s_tr s))) <= 1).
      { pose proof (If f) as F1. pose proof (Ic f) as C1. pose proof (proj1 (cnt_nodup _) mat_nodup f). simpl in F1, C1. lia. }
      assert (Hall : forall a b, In (f, a) (finishes (s_tr s)) -> In (f, b) (finishes (s_tr s)) -> a = b).
      { intros a b Ha Hb. clear - Hu Ha Hb. induction (finishes (s_tr s)) as [|[x y] fs IH]; [contradiction|].
        cbn [map fst] in Hu. rewrite cnt_cons in Hu. destruct Ha as [Ha|Ha], Hb as [Hb|Hb].
        - congruence.
        - inversion Ha; subst. rewrite Nat.eqb_refl in Hu. assert (0 < cnt f (map fst fs)) by (apply cnt_in; exact (in_map fst _ _ Hb)). simpl in Hu. lia.
        - inversion Hb; subst. rewrite Nat.eqb_refl in Hu. assert (0 < cnt f (map fst fs)) by (apply cnt_in; exact (in_map fst _ _ Ha)). simpl in Hu. lia.
        - apply IH; auto. lia. }
      assert (v = s_stat s) by (apply Hall; apply in_finishes; assumption). subst v. lia.
    + assert (Ip' : prog = (con ++ [a]) ++ m) by (rewrite <- app_assoc; exact Ip).
      destruct a as [e|e|e|e|].
      * (* commit *)
        inversion H; subst; clear H. exists (con ++ [ACommit e]).
        assert (Hinl : inl e = false).
        { destruct (inl e) eqn:Ei; [exfalso|reflexivity].
          destruct (prog_w e mat) as [_ [_ [_ [_ Hw]]]]. fold prog in Hw. rewrite Ip', !sumf_app, Ei in Hw. simpl in Hw. rewrite Nat.eqb_refl in Hw. simpl in Hw. lia. }
        constructor; simpl; auto.
        -- intros x. specialize (Ic x). simpl in Ic. rewrite cnt_app, cnt_cons. cbn [cnt]. change (cnt x []) with 0. lia.
        -- intros x Hx. rewrite cnt_app, cnt_cons in Hx. change (cnt x []) with 0 in Hx.
           destruct (Nat.eqb_spec e x); [subst; exact Hinl|]. simpl in Hx. apply Iin. lia.
        -- intros x Hx. apply join_step in Hx. destruct Hx as [Hx|[Hx|Hx]]; [auto|discriminate|discriminate].
        -- intros c1 c2 x E Hx. apply chk_snoc in E. destruct E as [[c2' E]|[E _]]; [eauto|discriminate].
        -- destruct Ist as [E|[E [f [Hf Hj]]]]; [auto|]. right. split; [exact E|]. exists f. split; [exact Hf|]. apply joined_app; auto.
      * (* macro start *)
        inversion H; subst; clear H. exists (con ++ [AMacroStart e]).
        assert (Hs : 0 < sumf (w_start e) (con ++ [AMacroStart e])).
        { rewrite sumf_app. simpl. rewrite Nat.eqb_refl. simpl. lia. }
        constructor; simpl; auto.
        -- intros x. specialize (Ic x). simpl in Ic. rewrite starts_app, cnt_app. simpl. rewrite cnt_cons. change (cnt x []) with 0. lia.
        -- intros x. specialize (If x). simpl in If. rewrite starts_app, finishes_app, cnt_app. simpl. rewrite app_nil_r, cnt_cons. change (cnt x []) with 0. lia.
        -- intros x v Hx. apply in_snoc; auto.
        -- intros x Hx. rewrite finishes_app. simpl. rewrite app_nil_r. auto.
        -- intros x Hx. apply join_step in Hx. destruct Hx as [Hx|[Hx|Hx]]; [|discriminate|discriminate]. specialize (Ij x Hx). snoc_ex.
        -- intros c1 c2 x E Hx. apply chk_snoc in E. destruct E as [[c2' E]|[E _]]; [|discriminate]. specialize (Ich _ _ x E Hx). snoc_ex.
        -- destruct Ist as [E|[E [f [Hf Hj]]]]; [auto|]. right. split; [exact E|]. exists f. split; [apply in_snoc; exact Hf|]. apply joined_app; auto.
        -- apply starts_after_deps_snoc; [exact Id|]. intros e0 Ee d Hd. inversion Ee; subst e0.
           (* use the barrier with the extended prefix *)
           assert (Hin : In e (concat mat)).
           { apply cnt_in. destruct (prog_w e mat) as [Hw _]. fold prog in Hw. rewrite Ip', sumf_app in Hw. lia. }
           assert (Hels : In e (els g)) by (eapply Permutation_in; [apply Hlay|exact Hin]).
           destruct (proj2 Hlay d e) as [i [j [li [lj [Hi [Hj [Hij [Hdi Hej]]]]]]]]; [split; assumption|].
           destruct (barrier _ _ _ _ _ _ _ _ Ip' Hs Hi Hj Hij Hdi Hej) as [c1 [c2 [Ec Hjc]]].
           apply chk_snoc in Ec. destruct Ec as [[c2' Ec]|[Ec _]]; [|discriminate]. eauto.
      * (* macro finish *)
        inversion H; subst; clear H. exists (con ++ [AMacroFinish e]).
        destruct (stat_plus (s_stat s) r Hst) as [S1 [S2 S3]].
        assert (Hinl : inl e = true).
        { destruct (inl e) eqn:Ei; [reflexivity|exfalso].
          destruct (prog_w e mat) as [_ [_ [Hw _]]]. fold prog in Hw. rewrite Ip', !sumf_app, Ei in Hw. simpl in Hw. rewrite Nat.eqb_refl in Hw. simpl in Hw. lia. }
        constructor; simpl; auto.
        -- intros x. specialize (Ic x). simpl in Ic. rewrite starts_app. simpl. rewrite app_nil_r. lia.
        -- intros x. specialize (If x). simpl in If. rewrite starts_app, finishes_app, map_app, !cnt_app. simpl. rewrite cnt_cons. change (cnt x []) with 0. lia.
        -- intros x v Hx. apply in_snoc; auto.
        -- intros x Hx. rewrite finishes_app, map_app, cnt_app. simpl. rewrite cnt_cons. change (cnt x []) with 0. rewrite Ifu2 by assumption.
           destruct (Nat.eqb_spec e x); [subst; congruence|]. simpl. lia.
        -- intros x Hx. apply join_step in Hx. destruct Hx as [Hx|[Hx|Hx]]; [|discriminate|].
           ++ specialize (Ij x Hx). snoc_ex.
           ++ inversion Hx; subst. exists r. split; [apply in_or_app; right; left; reflexivity|exact S1].
        -- intros c1 c2 x E Hx. apply chk_snoc in E. destruct E as [[c2' E]|[E _]]; [|discriminate]. specialize (Ich _ _ x E Hx). snoc_ex.
        -- destruct S3 as [S3|[S3 [S4 S5]]].
           ++ rewrite S3. destruct Ist as [E|[E [f [Hf Hj]]]]; [auto|]. right. split; [exact E|]. exists f. split; [apply in_snoc; exact Hf|]. apply joined_app; auto.
           ++ right. rewrite S4. split; [exact S5|]. exists e. split; [apply in_or_app; right; left; reflexivity|]. apply joined_app. right. right. left. reflexivity.
        -- apply starts_after_deps_snoc; [exact Id|discriminate].
      * (* get *)
        destruct (lookup e (s_futs s)) as [v|] eqn:El; [|discriminate]. inversion H; subst; clear H. exists (con ++ [AGet e]).
        destruct (stat_plus (s_stat s) v Hst) as [S1 [S2 S3]]. apply lookup_in in El.
        constructor; simpl; auto.
        -- intros x Hx. apply join_step in Hx. destruct Hx as [Hx|[Hx|Hx]]; [| |discriminate].
           ++ destruct (Ij x Hx) as [w [Hw1 Hw2]]. eauto.
           ++ inversion Hx; subst. exists v. split; [auto|exact S1].
        -- intros c1 c2 x E Hx. apply chk_snoc in E. destruct E as [[c2' E]|[E _]]; [eauto|discriminate].
        -- destruct S3 as [S3|[S3 [S4 S5]]].
           ++ rewrite S3. destruct Ist as [E|[E [f [Hf Hj]]]]; [auto|]. right. split; [exact E|]. exists f. split; [exact Hf|]. apply joined_app; auto.
           ++ right. rewrite S4. split; [exact S5|]. exists e. split; [auto|]. apply joined_app. right. left. left. reflexivity.
      * (* check *)
        unfold check_status in H. destruct (isErr (s_stat s)) eqn:Ee.
        -- assert (Hneg : (code (s_stat s) < 0)%Z) by (apply isErr_code; exact Ee).
           destruct (isCrash (s_stat s)) eqn:Ecr; inversion H; subst; clear H; exists con; constructor; simpl; rewrite ?Em; auto.
           ++ split; [|split; [reflexivity|eauto]]. unfold isCrash in Ecr. apply Z.eqb_eq in Ecr. exact Ecr.
           ++ split; [reflexivity|]. right. eauto.
        -- inversion H; subst; clear H. exists (con ++ [ACheck]).
           assert (Hok : (0 <= code (s_stat s))%Z) by (apply isErr_false; exact Ee).
           constructor; simpl; auto.
           ++ intros x Hx. apply join_step in Hx. destruct Hx as [Hx|[Hx|Hx]]; [auto|discriminate|discriminate].
           ++ intros c1 c2 x E Hx. apply chk_snoc in E. destruct E as [[c2' E]|[_ E]]; [eauto|]. subst c1.
              destruct (Ij x Hx) as [v [Hv Hv2]]. exists v. split; [exact Hv|]. lia.
           ++ destruct Ist as [E|[E [f [Hf Hj]]]]; [auto|lia].
  - (* worker start *)
    destruct (remove1 e (s_queue s)) as [q|] eqn:Er; [|discriminate]. inversion H; subst; clear H. exists con.
    pose proof (remove1_cnt _ _ _ Er) as Hq.
    assert (Hpos : 0 < cnt e (s_queue s)) by (rewrite Hq, Nat.eqb_refl; simpl; lia).
    constructor; simpl; auto.
    + intros x. specialize (Ic x). rewrite starts_app, cnt_app. simpl. rewrite cnt_cons. change (cnt x []) with 0. specialize (Hq x). lia.
    + intros x. specialize (If x). rewrite starts_app, finishes_app, cnt_app, cnt_cons. simpl. rewrite app_nil_r, cnt_cons. change (cnt x []) with 0. lia.
    + intros x v Hx. apply in_snoc; auto.
    + intros x Hx. rewrite finishes_app. simpl. rewrite app_nil_r. auto.
    + intros x Hx. rewrite cnt_cons in Hx. specialize (Hq x). destruct (Nat.eqb_spec e x); [subst; apply Iin; auto|]. simpl in *. apply Iin. lia.
    + intros x Hx. specialize (Ij x Hx). snoc_ex.
    + intros c1 c2 x E Hx. specialize (Ich _ _ x E Hx). snoc_ex.
    + destruct Ist as [E|[E [f [Hf Hj]]]]; [auto|]. right. split; [exact E|]. exists f. split; [apply in_snoc; exact Hf|]. exact Hj.
    + apply starts_after_deps_snoc; [exact Id|]. intros e0 Ee d Hd. inversion Ee; subst e0.
      apply (sinv_deps_of s con e I0); [|exact Hd]. apply (sinv_started s con e I0). lia.
  - (* worker finish *)
    destruct (remove1 e (s_running s)) as [q|] eqn:Er; [|discriminate]. inversion H; subst; clear H. exists con.
    pose proof (remove1_cnt _ _ _ Er) as Hq.
    assert (Hpos : 0 < cnt e (s_running s)) by (rewrite Hq, Nat.eqb_refl; simpl; lia).
    constructor; simpl; auto.
    + intros x. specialize (Ic x). rewrite starts_app. simpl. rewrite app_nil_r. lia.
    + intros x. specialize (If x). rewrite starts_app, finishes_app, map_app, !cnt_app. simpl. rewrite cnt_cons. change (cnt x []) with 0. specialize (Hq x). lia.
    + intros x v [Hx|Hx]; [inversion Hx; subst; apply in_or_app; right; left; reflexivity|apply in_snoc; auto].
    + intros x Hx. rewrite finishes_app, map_app, cnt_app. simpl. rewrite !cnt_cons. change (cnt x []) with 0. rewrite Ifu2 by assumption. lia.
    + intros x Hx. apply Iin. specialize (Hq x). lia.
    + intros x Hx. specialize (Ij x Hx). snoc_ex.
    + intros c1 c2 x E Hx. specialize (Ich _ _ x E Hx). snoc_ex.
    + destruct Ist as [E|[E [f [Hf Hj]]]]; [auto|]. right. split; [exact E|]. exists f. split; [apply in_snoc; exact Hf|]. exact Hj.
    + apply starts_after_deps_snoc; [exact Id|discriminate].
Qed.

Lemma srun_inv : forall ls s con s', sinv s con -> srun s ls = Some s' -> exists con', sinv s' con'.
Proof.
  induction ls as [|l ls IH]; simpl; intros s con s' I H; [inversion H; subst; eauto|].
  destruct (sstep s l) as [s1|] eqn:E; [|discriminate]. destruct (sinv_step _ _ _ _ I E) as [con1 I1]. eauto.
Qed.

Lemma sinv_once s con : sinv s con -> starts_once (s_tr s) /\ NoDup (map fst (finishes (s_tr s))).
Proof.
  intros I. split; apply cnt_nodup; intros e; pose proof (si_cons _ _ I e) as Hc; pose proof (proj1 (cnt_nodup _) mat_nodup e) as Hm.
  - lia.
  - pose proof (si_fin _ _ I e) as Hf. pose proof (si_prog _ _ I) as Hp.
    assert (sumf (w_ms e) (s_main s) <= sumf (w_start e) (s_main s)).
    { apply sumf_le. intros a _. destruct a; simpl; lia. }
    lia.
Qed.

Lemma nodup_fst_unique (l : list (nat * status)) k a b : NoDup (map fst l) -> In (k, a) l -> In (k, b) l -> a = b.
Proof.
  induction l as [|[x y] l IH]; simpl; intros Hnd Ha Hb; [contradiction|].
  inversion Hnd; subst. destruct Ha as [Ha|Ha], Hb as [Hb|Hb]; try congruence.
  - inversion Ha; subst. exfalso. apply H1. exact (in_map fst _ _ Hb).
  - inversion Hb; subst. exfalso. apply H1. exact (in_map fst _ _ Ha).
  - auto.
Qed.

(** A failed element in an earlier layer keeps every element of a later layer from starting. *)
Lemma sinv_failure_stops s con f r i j li lj e : sinv s con ->
  In (GFinish f r) (s_tr s) -> (code r < 0)%Z ->
  nth_error mat i = Some li -> nth_error mat j = Some lj -> i < j -> In f li -> In e lj -> ~ In (GStart e) (s_tr s).
Proof.
  intros I Hf Hr Hi Hj Hij Hfi Hej Hs.
  assert (He : 0 < sumf (w_start e) con).
  { apply (sinv_started s con e I). apply in_starts, cnt_in in Hs. lia. }
  destruct (barrier _ _ _ _ _ _ _ _ (si_prog _ _ I) He Hi Hj Hij Hfi Hej) as [c1 [c2 [Ec Hjc]]].
  destruct (si_chk _ _ I _ _ f Ec Hjc) as [v [Hv Hv0]].
  destruct (sinv_once s con I) as [_ Hu].
  assert (v = r) by (eapply nodup_fst_unique; [exact Hu|apply in_finishes; eassumption|apply in_finishes; eassumption]).
  subst; lia.
Qed.

(** When the run has returned OK, everything ran. *)
Lemma sinv_ok s con v : sinv s con -> s_out s = Some (EReturn v) -> (0 <= code v)%Z ->
  v = st_default /\ all_ran g (s_tr s) /\ forall e r, In (GFinish e r) (s_tr s) -> (0 <= code r)%Z.
Proof.
  intros I Ho Hv. pose proof (si_out _ _ I) as H. rewrite Ho in H. destruct H as [Ev [[Em Ed]|[Hn _]]]; [|lia].
  assert (Hq : forall e, cnt e (s_queue s) = 0 /\ cnt e (s_running s) = 0).
  { (* every future was joined *)
    intros e. pose proof (si_cons _ _ I e) as Hc. pose proof (si_fin _ _ I e) as Hf. rewrite Em in Hc, Hf. simpl in Hc, Hf.
    destruct (in_dec_nat e (concat mat)) as [Hin|Hn].
    - assert (Hm : cnt e (concat mat) <= 1) by (apply cnt_nodup, mat_nodup).
      assert (Hj : joined e con).
      { apply in_concat in Hin. destruct Hin as [le [Hle Hee]]. apply in_split in Hle. destruct Hle as [m1 [m2 Emat]].
        destruct (layer_joined le e Hee) as [c [Ec Hjc]].
        pose proof (si_prog _ _ I) as Hp. rewrite Em, app_nil_r in Hp. rewrite <- Hp. unfold prog, static_prog.
        rewrite Emat, flat_map_app. simpl. rewrite Ec. apply joined_app. right. rewrite <- app_assoc. apply joined_app; auto. }
      destruct (si_join _ _ I e Hj) as [w [Hw _]]. apply in_finishes in Hw. apply (in_map fst), cnt_in in Hw. simpl in Hw. lia.
    - assert (cnt e (concat mat) = 0) by (apply cnt_zero; exact Hn). lia. }
  split; [exact Ed|]. split.
  - assert (Hperm : Permutation (concat mat) (els g)) by apply Hlay.
    split; eapply Permutation_trans; try exact Hperm.
    + apply NoDup_Permutation; [apply (sinv_once s con I)|apply mat_nodup|]. intros e. rewrite !cnt_in.
      pose proof (si_cons _ _ I e) as Hc. rewrite Em in Hc. simpl in Hc. specialize (Hq e). lia.
    + apply NoDup_Permutation; [apply (sinv_once s con I)|apply mat_nodup|]. intros e. rewrite !cnt_in.
      pose proof (si_cons _ _ I e) as Hc. pose proof (si_fin _ _ I e) as Hf. rewrite Em in Hc, Hf. simpl in Hc, Hf. specialize (Hq e). lia.
  - intros e r Hr.
    assert (Hin : In e (concat mat)).
    { apply cnt_in. pose proof (si_cons _ _ I e) as Hc. pose proof (si_fin _ _ I e) as Hf. rewrite Em in Hc, Hf. simpl in Hc, Hf.
      apply in_finishes in Hr. apply (in_map fst), cnt_in in Hr. simpl in Hr. lia. }
    apply in_concat in Hin. destruct Hin as [le [Hle Hee]]. apply in_split in Hle. destruct Hle as [m1 [m2 Emat]].
    destruct (layer_joined le e Hee) as [c [Ec Hjc]].
    assert (Econ : con = (static_prog inl m1 ++ c) ++ ACheck :: static_prog inl m2).
    { pose proof (si_prog _ _ I) as Hp. rewrite Em, app_nil_r in Hp. rewrite <- Hp.
      unfold prog, static_prog. rewrite Emat, flat_map_app. simpl. rewrite Ec, <- !app_assoc. reflexivity. }
    destruct (si_chk _ _ I _ _ e Econ) as [v2 [Hv2 Hv20]]; [apply joined_app; auto|].
    destruct (sinv_once s con I) as [_ Hu].
    assert (v2 = r) by (eapply nodup_fst_unique; [exact Hu|apply in_finishes; eassumption|apply in_finishes; eassumption]).
    subst; exact Hv20.
Qed.

(** When the run has returned or thrown with an error, that error was reported by an element and nothing is left running. *)
Lemma sinv_err s con : sinv s con ->
  match s_out s with
  | None => True
  | Some (EReturn v) => (code v < 0)%Z -> exists e, In (GFinish e v) (s_tr s)
  | Some (EThrow m) => exists e v, In (GFinish e v) (s_tr s) /\ code v = STATUS_CRASH /\ m = info v
  end.
Proof.
  intros I. pose proof (si_out _ _ I) as H. destruct (s_out s) as [[v|m]|]; [| |exact Logic.I].
  - destruct H as [-> _]. intros Hn. destruct (si_stat _ _ I) as [E|[_ [e [He _]]]]; [rewrite E in Hn; discriminate|eauto].
  - destruct H as [Hc [Hm _]]. destruct (si_stat _ _ I) as [E|[_ [e [He _]]]]; [rewrite E in Hc; discriminate|]. eauto.
Qed.

(** Progress: a run that has not returned can always make a step. *)
Lemma sinv_progress s con : sinv s con -> s_out s = None -> exists l s', sstep s l = Some s'.
Proof.
  intros I Ho. destruct (s_main s) as [|a m] eqn:Em.
  - exists (SMain st_default). simpl. rewrite Ho, Em. eauto.
  - destruct a as [e|e|e|e|]; try (exists (SMain st_default); simpl; rewrite Ho, Em; eauto; fail).
    + destruct (lookup e (s_futs s)) as [v|] eqn:El; [exists (SMain st_default); simpl; rewrite Ho, Em, El; eauto|].
      (* the future is not ready: its task is queued or running *)
      destruct (prog_w e mat) as [W1 [W2 [W3 [W4 W5]]]].
      pose proof (si_prog _ _ I) as Hp. rewrite Em in Hp.
      assert (Hinl : inl e = false).
      { destruct (inl e) eqn:Ei; [exfalso|reflexivity]. fold prog in W4. rewrite Hp, sumf_app in W4. simpl in W4. rewrite Nat.eqb_refl in W4. simpl in W4. lia. }
      rewrite Hinl in W2, W3, W4, W5.
      assert (Hm : cnt e (concat mat) = 1).
      { assert (cnt e (concat mat) <= 1) by (apply cnt_nodup, mat_nodup). fold prog in W4. rewrite Hp, sumf_app in W4. simpl in W4. rewrite Nat.eqb_refl in W4. simpl in W4. lia. }
      (* the commit precedes the get *)
      assert (Hcom : sumf (w_com e) m = 0).
      { assert (Hin : In e (concat mat)) by (apply cnt_in; lia).
        apply in_concat in Hin. destruct Hin as [le [Hle Hee]]. apply in_split in Hle. destruct Hle as [m1 [m2 Emat]].
        assert (Hpre : prog = (static_prog inl m1 ++ map ACommit (filter (fun x => negb (inl x)) le)) ++
             (flat_map (fun x => [AMacroStart x; AMacroFinish x]) (filter inl le) ++ map AGet (filter (fun x => negb (inl x)) le) ++ [ACheck]) ++ static_prog inl m2).
        { unfold prog, static_prog. rewrite Emat, flat_map_app. simpl. unfold layer_prog. rewrite <- !app_assoc. reflexivity. }
        assert (Hnog : ~ In (AGet e) (static_prog inl m1 ++ map ACommit (filter (fun x => negb (inl x)) le))).
        { intros Hin. apply in_app_or in Hin. destruct Hin as [Hin|Hin].
          - apply (sumf_in (w_get e)) in Hin. simpl in Hin. rewrite Nat.eqb_refl in Hin. simpl in Hin.
            destruct (prog_w e m1) as [_ [_ [_ [G _]]]]. rewrite G, Hinl in Hin.
            rewrite Emat, concat_app, cnt_app in Hm. simpl in Hm. rewrite cnt_app in Hm.
            assert (0 < cnt e le) by (apply cnt_in; exact Hee). lia.
          - apply in_map_iff in Hin. destruct Hin as [x [Hx _]]. discriminate. }
        rewrite Hp in Hpre. change (con ++ AGet e :: m) with (con ++ [AGet e] ++ m) in Hpre. rewrite app_assoc in Hpre.
        destruct (app_prefix _ _ _ _ (AGet e) Hpre) as [t Et]; [apply in_or_app; right; left; reflexivity|exact Hnog|].
        assert (Hc1 : 1 <= sumf (w_com e) (con ++ [AGet e])).
        { rewrite Et, !sumf_app, sumf_map. cbn [w_com]. rewrite sumf_cnt, cnt_filter, Hinl. simpl.
          assert (0 < cnt e le) by (apply cnt_in; exact Hee). lia. }
        fold prog in W5. rewrite Hp in W5. change (con ++ AGet e :: m) with (con ++ [AGet e] ++ m) in W5. rewrite app_assoc, sumf_app in W5. lia. }
      assert (Hms : sumf (w_ms e) m = 0).
      { fold prog in W2. rewrite Hp, sumf_app in W2. simpl in W2. lia. }
      assert (Hmf : sumf (w_mf e) m = 0).
      { fold prog in W3. rewrite Hp, sumf_app in W3. simpl in W3. lia. }
      assert (Hst : sumf (w_start e) m = sumf (w_com e) m + sumf (w_ms e) m).
      { clear. induction m as [|a m IH]; simpl; [reflexivity|]. destruct a; simpl; lia. }
      pose proof (si_cons _ _ I e) as Hc. pose proof (si_fin _ _ I e) as Hf. rewrite Em in Hc, Hf. simpl in Hc, Hf.
      pose proof (si_futs2 _ _ I e Hinl) as Hf2.
      assert (Hnf : cnt e (map fst (s_futs s)) = 0).
      { destruct (in_dec_nat e (map fst (s_futs s))) as [Hin|Hn]; [apply lookup_some in Hin; destruct Hin; congruence|].
        apply cnt_zero; exact Hn. }
      destruct (Nat.eq_dec (cnt e (s_queue s)) 0) as [Hq|Hq].
      * assert (Hr : In e (s_running s)) by (apply cnt_in; lia).
        destruct (remove1_some _ _ Hr) as [q Eq]. exists (SFinish e st_default). simpl. rewrite Eq. eauto.
      * assert (Hr : In e (s_queue s)) by (apply cnt_in; lia).
        destruct (remove1_some _ _ Hr) as [q Eq]. exists (SStart e). simpl. rewrite Eq. eauto.
    + exists (SMain st_default). simpl. rewrite Ho, Em. destruct (check_status (s_stat s)); eauto.
Qed.
End Static.

(** Termination: every execution has at most [s_measure] steps. *)
Definition s_measure (s : sst) : nat :=
  3 * length (s_main s) + 2 * length (s_queue s) + length (s_running s) + match s_out s with None => 1 | Some _ => 0 end.
Lemma remove1_length e : forall l l', remove1 e l = Some l' -> length l = S (length l').
Proof.
  induction l as [|a l IH]; intros l' H; simpl in H; [discriminate|].
  destruct (Nat.eqb a e); [inversion H; reflexivity|]. destruct (remove1 e l) as [q|]; simpl in H; [|discriminate].
  inversion H; subst. simpl. rewrite (IH q eq_refl). reflexivity.
Qed.
Lemma sstep_measure s l s' : sstep s l = Some s' -> s_measure s' < s_measure s.
Proof.
  unfold s_measure. destruct l as [r|e|e r]; simpl; intros H.
  - destruct (s_out s) eqn:Eo; [discriminate|]. destruct (s_main s) as [|[e|e|e|e|] m] eqn:Em.
    + inversion H; subst; simpl; lia.
    + inversion H; subst; simpl. rewrite app_length; simpl. lia.
    + inversion H; subst; simpl; lia.
    + inversion H; subst; simpl; lia.
    + destruct (lookup e (s_futs s)); [|discriminate]. inversion H; subst; simpl; lia.
    + destruct (check_status (s_stat s)); inversion H; subst; simpl; rewrite ?Em; simpl; lia.
  - destruct (remove1 e (s_queue s)) as [q|] eqn:Er; [|discriminate]. inversion H; subst; simpl. rewrite (remove1_length _ _ _ Er). lia.
  - destruct (remove1 e (s_running s)) as [q|] eqn:Er; [|discriminate]. inversion H; subst; simpl. rewrite (remove1_length _ _ _ Er). lia.
Qed.
Lemma srun_measure : forall ls s s', srun s ls = Some s' -> length ls + s_measure s' <= s_measure s.
Proof.
  induction ls as [|l ls IH]; simpl; intros s s' H; [inversion H; lia|].
  destruct (sstep s l) as [s1|] eqn:E; [|discriminate]. apply sstep_measure in E. apply IH in H. lia.
Qed.
