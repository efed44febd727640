From Verif Require Import AsyncSpec.
Local Open Scope list_scope.

(** The rest of a call, with the number of its steps *)
Inductive ends (u : user) : pst -> act -> nat -> pst -> bool -> Prop :=
| ends_done p a : a_pc a = CDone -> ends u p a 0 p (a_ok a)
| ends_step p a p1 a1 n p' ok : a_pc a <> CDone -> act_step u p a = (p1, a1) -> ends u p1 a1 n p' ok -> ends u p a (S n) p' ok.
Lemma ends_one u p pc ok left p1 a1 : pc <> CDone -> act_step u p (mkA pc ok left) = (p1, a1) ->
  forall p' r, (exists n, ends u p1 a1 n p' r) -> exists n, ends u p (mkA pc ok left) n p' r.
Proof. intros N E p' r (n & H). exists (S n). now apply (ends_step u p (mkA pc ok left) p1 a1). Qed.
Ltac one := eapply ends_one; [discriminate|cbn; reflexivity|].

Lemma ends_els u left p' r : forall l tr b ok, (exists n, ends u (mkP true false (fst (b_els u l tr) ++ [VReset])) (after (ok && snd (b_els u l tr)) left) n p' r) ->
  b = true -> exists n, ends u (mkP true b tr) (mkA (CBody l) ok left) n p' r.
Proof.
  induction l as [|e l IH]; intros tr b ok H ->; cbn [b_els] in H.
  - cbn [fst snd] in H. one. one. rewrite Bool.andb_true_r in H. exact H.
  - eapply ends_one; [discriminate|cbn; reflexivity|]. unfold see at 1. cbn [p_init p_par p_tr].
    destruct (u_body u (tr ++ [VStart e true]) e) eqn:Eb.
    + eapply ends_one; [discriminate|cbn; rewrite Eb; reflexivity|]. now apply IH.
    + eapply ends_one; [discriminate|cbn; rewrite Eb; reflexivity|]. one. cbn [fst snd] in H. rewrite Bool.andb_false_r in H. exact H.
Qed.
Lemma ends_run u left p' r ok tr : (exists n, ends u (mkP true false (fst (b_run u tr))) (after (ok && snd (b_run u tr)) left) n p' r) ->
  forall b, exists n, ends u (mkP true b tr) (mkA CRun0 ok left) n p' r.
Proof.
  intros H b. one. one. apply ends_els; trivial. cbn [p_tr]. unfold b_run in H. destruct (b_els u (u_els u) (tr ++ [VSetup])) as [t o]. exact H.
Qed.
Lemma ends_des u tr ok : exists n, ends u (mkP true false tr) (mkA CDes0 ok (Some 0)) n (mkP false false (tr ++ [VDestroy])) ok.
Proof. one. one. exists 0. now apply (ends_done u _ (mkA CDone ok (Some 0))). Qed.
Lemma ends_runs u : forall n tr, exists m, ends u (mkP true false tr) (after true (Some n)) m (mkP false false (fst (b_runs u n tr) ++ [VDestroy])) (snd (b_runs u n tr)).
Proof.
  induction n as [|n IH]; intros tr; cbn [after b_runs].
  - cbn [fst snd]. apply ends_des.
  - apply ends_run. destruct (b_run u tr) as [t o]. cbn [fst snd]. destruct o; cbn [andb].
    + apply IH.
    + cbn [fst snd]. destruct n; apply ends_des.
Qed.
Lemma ends_job u j i tr i' tr' ok : b_job u j i tr = (i', tr', ok) -> exists n, ends u (mkP i false tr) (job_act j) n (mkP i' false tr') ok.
Proof.
  unfold b_job, job_act. destruct j as [|n].
  - destruct i.
    + intros E. apply ends_run. destruct (b_run u tr) as [t o]. injection E as <- <- <-. cbn. exists 0. apply (ends_done u _ (mkA CDone o None)). reflexivity.
    + intros E. injection E as <- <- <-. one. exists 0. now apply (ends_done u _ (mkA CDone false None)).
  - destruct i.
    + intros E. injection E as <- <- <-. one. exists 0. now apply (ends_done u _ (mkA CDone false (Some n))).
    + destruct (u_init u tr) eqn:Ei; intros E.
      * one. eapply ends_one; [discriminate|cbn; rewrite Ei; reflexivity|]. pose proof (ends_runs u n (tr ++ [VInit])) as H. destruct (b_runs u n (tr ++ [VInit])) as [t o].
        injection E as <- <- <-. exact H.
      * injection E as <- <- <-. one. eapply ends_one; [discriminate|cbn; rewrite Ei; reflexivity|]. exists 0. now apply (ends_done u _ (mkA CDone false (Some n))).
Qed.

(** The futures of the two machines; [w]: the one that a thread works on *)
Definition frel (w : option nat) (f : nat -> option fut) (b : nat -> option bfut) : Prop :=
  forall k, w <> Some k -> match f k, b k with None, None => True | Some (FLazy j), Some (BLazy j') => j = j' | _, _ => False end.
Definition prel (p : pst) (b : bst) : Prop := p_init p = b_init b /\ p_tr p = b_tr b /\ p_par p = false.
(** The call that the user thread begins, and the one that a new thread begins *)
Definition starts (b : bst) (o : aop) : option act :=
  match o with
  | OInit => Some (mkA CInit0 true None)
  | ODestroy => Some (mkA CDes0 true None)
  | OCall j => Some (job_act j)
  | OGet k => match b_fut b k with Some (BLazy j) => Some (job_act j) | _ => None end
  | _ => None
  end.
Definition threads (b : bst) (o : aop) : option (nat * job) :=
  match o with
  | OAsync k j Async => match b_fut b k with None => if Bool.eqb (b_init b) (job_init j) then Some (k, j) else None | _ => None end
  | _ => None
  end.
Definition at_b (b : bst) : pst := mkP (b_init b) false (b_tr b).
(** The number of steps of a program *)
Inductive cost (u : user) : bst -> list aop -> nat -> Prop :=
| cost_nil b : cost u b [] 0
| cost_call b o r a n b1 ok m : starts b o = Some a -> ends u (at_b b) a n (at_b b1) ok -> b_op u b o = (b1, RStatus ok) -> cost u b1 r m -> cost u b (o :: r) (2 + n + m)
| cost_thread b o r k j n b1 ok m : threads b o = Some (k, j) -> ends u (at_b b) (job_act j) n (at_b b1) ok -> b_op u b o = (b1, RVoid) ->
    b_fut b1 = upd (b_fut b) k (Some (BReady ok)) -> cost u b1 r m -> cost u b (o :: r) (1 + n + m)
| cost_one b o r b1 a m : starts b o = None -> threads b o = None -> b_op u b o = (b1, a) -> cost u b1 r m -> cost u b (o :: r) (1 + m).
Lemma cost_ex u : forall prog b, exists n, cost u b prog n.
Proof.
  induction prog as [|o r IH]; intros b; [exists 0; constructor|].
  destruct (starts b o) as [a|] eqn:Es.
  - assert (X : exists b1 ok n, ends u (at_b b) a n (at_b b1) ok /\ b_op u b o = (b1, RStatus ok)).
    { destruct o as [| |j|k j p|k|k|]; cbn [starts] in Es; try discriminate.
      - injection Es as <-. cbn [b_op]. unfold at_b. destruct (b_init b) eqn:Ei.
        + exists b, false. assert (X : exists n, ends u (mkP true false (b_tr b)) (mkA CInit0 true None) n (mkP true false (b_tr b)) false).
          { one. exists 0. now apply (ends_done u _ (mkA CDone false None)). }
          destruct X as (n & X). exists n. rewrite Ei. now split.
        + exists (mkB (u_init u (b_tr b)) (b_tr b ++ [VInit]) (b_fut b)), (u_init u (b_tr b)). cbn [b_init b_tr].
          assert (X : exists n, ends u (mkP false false (b_tr b)) (mkA CInit0 true None) n (mkP (u_init u (b_tr b)) false (b_tr b ++ [VInit])) (u_init u (b_tr b))).
          { one. destruct (u_init u (b_tr b)) eqn:Eu.
            - eapply ends_one; [discriminate|cbn; rewrite Eu; reflexivity|]. exists 0. now apply (ends_done u _ (mkA CDone true None)).
            - eapply ends_one; [discriminate|cbn; rewrite Eu; reflexivity|]. exists 0. now apply (ends_done u _ (mkA CDone false None)). }
          destruct X as (n & X). exists n. now split.
      - injection Es as <-. cbn [b_op]. unfold at_b. destruct (b_init b) eqn:Ei.
        + exists (mkB false (b_tr b ++ [VDestroy]) (b_fut b)), true. cbn [b_init b_tr].
          assert (X : exists n, ends u (mkP true false (b_tr b)) (mkA CDes0 true None) n (mkP false false (b_tr b ++ [VDestroy])) true).
          { one. one. exists 0. now apply (ends_done u _ (mkA CDone true None)). }
          destruct X as (n & X). exists n. now split.
        + exists b, false. assert (X : exists n, ends u (mkP false false (b_tr b)) (mkA CDes0 true None) n (mkP false false (b_tr b)) false).
          { one. exists 0. now apply (ends_done u _ (mkA CDone false None)). }
          destruct X as (n & X). exists n. rewrite Ei. now split.
      - injection Es as <-. cbn [b_op]. destruct (b_job u j (b_init b) (b_tr b)) as [[i t] ok] eqn:Ej. destruct (ends_job u j _ _ i t ok Ej) as (n & X).
        exists (mkB i t (b_fut b)), ok, n. now split.
      - cbn [b_op]. destruct (b_fut b k) as [[|j]|]; try discriminate. injection Es as <-. destruct (b_job u j (b_init b) (b_tr b)) as [[i t] ok] eqn:Ej.
        destruct (ends_job u j _ _ i t ok Ej) as (n & X). exists (mkB i t (upd (b_fut b) k None)), ok, n. now split. }
    destruct X as (b1 & ok & n & X & Eo). destruct (IH b1) as (m & Hm). exists (2 + n + m). now apply (cost_call u b o r a n b1 ok m).
  - destruct (threads b o) as [[k j]|] eqn:Et.
    + destruct o as [| |j'|k' j' [|]|k'|k'|]; cbn [threads] in Et; try discriminate. destruct (b_fut b k') eqn:Ef; [discriminate|].
      destruct (Bool.eqb (b_init b) (job_init j')) eqn:Ei; [|discriminate]. injection Et as -> ->.
      destruct (b_job u j (b_init b) (b_tr b)) as [[i t] ok] eqn:Ej. destruct (ends_job u j _ _ i t ok Ej) as (n & X).
      set (b1 := mkB i t (upd (b_fut b) k (Some (BReady ok)))). destruct (IH b1) as (m & Hm). exists (1 + n + m).
      apply (cost_thread u b _ r k j n b1 ok m); trivial.
      * cbn [threads]. now rewrite Ef, Ei.
      * cbn [b_op]. rewrite Ef, Ei, Ej. reflexivity.
    + destruct (b_op u b o) as [b1 a] eqn:Eo. destruct (IH b1) as (m & Hm). exists (1 + m). now apply (cost_one u b o r b1 a m).
Qed.

(** What will come out *)
Inductive good (u : user) (s : sys) (N : nat) (bF : bst) (ans : list aans) : Prop :=
| g_idle b w l : s_now s = None -> s_p s = at_b b -> frel None (s_fut s) (b_fut b) -> cost u b (s_todo s) N -> tidy w (s_todo s) ->
    b_prog u b (s_todo s) = (bF, l) -> ans = s_ans s ++ l -> good u s N bF ans
| g_busy a b n m ok l : s_now s = Some a -> ends u (s_p s) a n (at_b b) ok -> frel None (s_fut s) (b_fut b) -> cost u b (tl (s_todo s)) m -> tidy None (tl (s_todo s)) ->
    b_prog u b (tl (s_todo s)) = (bF, l) -> ans = s_ans s ++ RStatus ok :: l -> N = S n + m -> good u s N bF ans
| g_thread k a b n m ok l : s_now s = None -> s_fut s k = Some (FThread a) -> ends u (s_p s) a n (at_b b) ok -> b_fut b k = Some (BReady ok) ->
    frel (Some k) (s_fut s) (b_fut b) -> cost u b (s_todo s) m -> tidy (Some k) (s_todo s) ->
    b_prog u b (s_todo s) = (bF, l) -> ans = s_ans s ++ l -> N = n + m -> good u s N bF ans.
Lemma frel_none w f b k : frel w f b -> w <> Some k -> (f k = None <-> b k = None).
Proof. intros F W. specialize (F k W). destruct (f k) as [[|]|], (b k) as [[|]|]; try contradiction; split; intros; trivial; discriminate. Qed.
Lemma frel_upd f b k x y w : frel w f b -> (w = None \/ w = Some k) -> match x, y with None, None => True | Some (FLazy j), Some (BLazy j') => j = j' | _, _ => False end ->
  frel None (upd f k x) (upd b k y).
Proof.
  intros F W H q _. destruct (Nat.eq_dec q k) as [->|D]; [now rewrite !upd_same|]. rewrite !upd_other by trivial. apply F. destruct W as [->| ->]; congruence.
Qed.
Lemma no_thread s b k a : frel None (s_fut s) b -> s_fut s k = Some (FThread a) -> False.
Proof. intros F H. specialize (F k ltac:(discriminate)). rewrite H in F. exact F. Qed.
Lemma good_main u s N bF ans s' : good u s N bF ans -> main_step u s = Some s' -> exists N', N = S N' /\ good u s' N' bF ans.
Proof.
  intros G E. destruct G as [b w l H1 H2 H3 H4 H5 H6 H7|a b n m ok l H1 H2 H3 H4 H5 H6 H7 H8|k a b n m ok l H1 H2 H3 H4 H5 H6 H7 H8 H9 H10]; unfold main_step in E; rewrite H1 in E.
  - (* a new operation *)
    destruct s as [p f now todo an]. cbn [s_p s_fut s_now s_todo s_ans] in *. subst now p. destruct todo as [|o r]; [discriminate|].
    assert (T : exists w', tidy w' r) by (destruct w as [k|], o as [| |j|k' j [|]|k'|k'|]; cbn [tidy] in H5; try contradiction; try (now exists None); try (now eexists; apply H5)).
    assert (TS : forall a, starts b o = Some a -> tidy None r) by (intros a; destruct w as [k|], o as [| |j|k' j [|]|k'|k'|]; cbn [tidy starts] in *; try discriminate; tauto).
    cbn [b_prog] in H6. destruct (b_op u b o) as [b1 a0] eqn:Eo. destruct (b_prog u b1 r) as [b2 l'] eqn:Er. injection H6 as <- <-.
    assert (QQ : forall x y, b_op u b o = (x, y) -> x = b1 /\ y = a0) by (intros x y Q; split; congruence).
    assert (ONE : forall s1 a f1, starts b o = None -> threads b o = None -> a = a0 -> frel None f1 (b_fut b1) -> at_b b1 = at_b b ->
                  s1 = mkS (at_b b) f1 None r (an ++ [a]) -> exists N', N = S N' /\ good u s1 N' b2 ans).
    { intros s1 a f1 S0 T0 -> F1 A1 ->. inversion H4; subst; try congruence. exists m. split; [reflexivity|].
      match goal with H : b_op u b o = (?x, ?y), _ : cost u ?x r m |- _ => destruct (QQ x y H) as [-> ->] end. destruct T as (w' & T). apply (g_idle u _ m b2 _ b1 w' l'); cbn; trivial; [now symmetry|]. now rewrite <- app_assoc. }
    assert (CALL : forall s1 a f1, starts b o = Some a -> frel None f1 (b_fut b1) -> s1 = mkS (at_b b) f1 (Some a) (o :: r) an -> exists N', N = S N' /\ good u s1 N' b2 ans).
    { intros s1 a f1 S0 F1 ->. inversion H4; subst; try congruence; [|exfalso; destruct o as [| |j'|k' j' [|]|k'|k'|]; cbn [starts threads] in *; discriminate].
      match goal with H : b_op u b o = (?x, RStatus ?y), _ : cost u ?x r m |- _ => destruct (QQ x _ H) as [-> <-] end. match goal with H : starts b o = Some ?x, _ : ends u _ ?x _ _ _ |- _ => assert (EA : x = a) by congruence; subst x end.
      exists (S n + m). split; [lia|]. apply (g_busy u _ _ b2 _ a b1 n m ok l'); cbn; trivial. now apply (TS a). }
    destruct o as [| |j|k j p|k|k|].
    + injection E as <-. eapply CALL; [reflexivity| |unfold begin; reflexivity]. cbn [b_op] in Eo. destruct (b_init b); injection Eo as <- <-; exact H3.
    + injection E as <-. eapply CALL; [reflexivity| |unfold begin; reflexivity]. cbn [b_op] in Eo. destruct (b_init b); injection Eo as <- <-; exact H3.
    + injection E as <-. eapply CALL; [reflexivity| |unfold begin; reflexivity]. cbn [b_op] in Eo. destruct (b_job u j (b_init b) (b_tr b)) as [[i t] ok]. injection Eo as <- <-. exact H3.
    + cbn [b_op] in Eo. destruct (f k) as [x|] eqn:Ef.
      * injection E as <-. assert (Eb : exists y, b_fut b k = Some y).
        { specialize (H3 k ltac:(discriminate)). rewrite Ef in H3. destruct x; [contradiction|]. destruct (b_fut b k) as [y|]; [now exists y|contradiction]. }
        destruct Eb as (y & Eb). rewrite Eb in Eo. injection Eo as <- <-. eapply ONE; [reflexivity| |reflexivity|exact H3|reflexivity|reflexivity]. cbn [threads]. rewrite Eb. now destruct p.
      * assert (Eb : b_fut b k = None) by (now apply (frel_none None f (b_fut b) k H3)). rewrite Eb in Eo. cbn [at_b p_init] in E.
        destruct (Bool.eqb (b_init b) (job_init j)) eqn:Ei.
        -- destruct p.
           ++ injection E as <-. destruct (b_job u j (b_init b) (b_tr b)) as [[i t] ok] eqn:Ej. injection Eo as <- <-. unfold answer. cbn [s_p s_fut s_now s_todo s_ans tl].
              inversion H4; subst; [discriminate| |cbn [threads] in *; rewrite Eb, Ei in *; discriminate].
              match goal with H : threads b _ = Some _ |- _ => cbn [threads] in H; rewrite Eb, Ei in H; injection H as <- <- end.
              match goal with H : b_op u b _ = _ |- _ => cbn [b_op] in H; rewrite Eb, Ei, Ej in H; injection H as <- end.
              match goal with H : b_fut _ = upd _ _ _ |- _ => cbn [b_fut] in H; assert (EK : ok0 = ok) by (apply (f_equal (fun g => g k)) in H; rewrite !upd_same in H; congruence); subst ok0 end.
              exists (n + m). split; [lia|]. apply (g_thread u _ _ b2 _ k (job_act j) (mkB i t (upd (b_fut b) k (Some (BReady ok)))) n m ok l'); cbn; trivial.
              ** now rewrite upd_same.
              ** now rewrite upd_same.
              ** intros q Q. rewrite !upd_other by congruence. apply H3. discriminate.
              ** cbn [tidy] in H5. destruct w; [contradiction|exact H5].
              ** now rewrite <- app_assoc.
           ++ injection E as <-. injection Eo as <- <-. eapply ONE; [reflexivity|reflexivity|reflexivity| |reflexivity|reflexivity]. cbn [b_fut]. apply (frel_upd _ _ k _ _ None H3); [now left|reflexivity].
        -- injection E as <-. injection Eo as <- <-. eapply ONE; [reflexivity| |reflexivity|exact H3|reflexivity|reflexivity]. cbn [threads]. rewrite Eb, Ei. now destruct p.
    + cbn [b_op] in Eo. pose proof (H3 k ltac:(discriminate)) as F. destruct (f k) as [[x|x]|] eqn:Ef; destruct (b_fut b k) as [[y|y]|] eqn:Eb; try contradiction.
      * subst y. injection E as <-. destruct (b_job u x (b_init b) (b_tr b)) as [[i t] ok]. injection Eo as <- <-. eapply CALL; [cbn [starts]; rewrite Eb; reflexivity| |reflexivity].
        cbn [b_fut]. apply (frel_upd _ _ k _ _ None H3); [now left|exact I].
      * injection E as <-. injection Eo as <- <-. eapply ONE; [cbn [starts]; now rewrite Eb|reflexivity|reflexivity|exact H3|reflexivity|reflexivity].
    + cbn [b_op] in Eo. pose proof (H3 k ltac:(discriminate)) as F. destruct (f k) as [[x|x]|] eqn:Ef; destruct (b_fut b k) as [[y|y]|] eqn:Eb; try contradiction.
      * injection E as <-. injection Eo as <- <-. eapply ONE; [reflexivity|reflexivity|reflexivity| |reflexivity|reflexivity]. cbn [b_fut]. apply (frel_upd _ _ k _ _ None H3); [now left|exact I].
      * injection E as <-. injection Eo as <- <-. eapply ONE; [reflexivity|reflexivity|reflexivity|exact H3|reflexivity|reflexivity].
    + injection E as <-. cbn [b_op] in Eo. injection Eo as <- <-. eapply ONE; [reflexivity|reflexivity|reflexivity|exact H3|reflexivity|reflexivity].
  - (* inside a call *)
    inversion H2; subst.
    + match goal with H : a_pc a = CDone |- _ => rewrite H in E end. injection E as <-. exists m. split; [reflexivity|].
      apply (g_idle u _ m bF _ b None l); cbn; trivial. now rewrite <- app_assoc.
    + match goal with H : act_step _ _ _ = _ |- _ => rewrite H in E end.
      assert (E' : Some (mkS p1 (s_fut s) (Some a1) (s_todo s) (s_ans s)) = Some s') by (destruct (a_pc a); congruence). injection E' as <-.
      exists (S n0 + m). split; [lia|]. apply (g_busy u _ _ bF _ a1 b n0 m ok l); cbn; trivial.
  - (* while a thread makes the call *)
    destruct s as [p f now todo an]. cbn [s_p s_fut s_now s_todo s_ans] in *. subst now N. destruct todo as [|o r]; [discriminate|]. cbn [tidy] in H7.
    cbn [b_prog] in H8. destruct (b_op u b o) as [b1 a0] eqn:Eo. destruct (b_prog u b1 r) as [b2 l'] eqn:Er. injection H8 as <- <-.
    destruct o as [| |j|k' j p0|k'|k'|]; try contradiction.
    + destruct H7 as [-> H7]. rewrite H2 in E. cbn [b_op] in Eo. rewrite H4 in Eo. injection Eo as <- <-. inversion H3; subst.
      * match goal with H : a_pc a = CDone |- _ => rewrite H in E end. injection E as <-. inversion H6; subst; cbn [starts threads] in *; [rewrite H4 in *; discriminate|discriminate|].
        exists m0. split; [reflexivity|]. match goal with H : b_op u b _ = _ |- _ => cbn [b_op] in H; rewrite H4 in H; injection H as <- <- end.
        eapply (g_idle u _ m0 b2 _ _ None l'); [reflexivity| | |eassumption|exact H7|exact Er|].
        -- reflexivity.
        -- cbn [b_fut]. apply (frel_upd _ _ k _ _ (Some k) H5); [now right|exact I].
        -- cbn. now rewrite <- app_assoc.
      * exfalso. destruct (a_pc a); congruence.
    + destruct H7 as [-> H7]. rewrite H2 in E. cbn [b_op] in Eo. rewrite H4 in Eo. injection Eo as <- <-. inversion H3; subst.
      * match goal with H : a_pc a = CDone |- _ => rewrite H in E end. injection E as <-. inversion H6; subst; cbn [starts threads] in *; [discriminate|discriminate|].
        exists m0. split; [reflexivity|]. match goal with H : b_op u b _ = _ |- _ => cbn [b_op] in H; rewrite H4 in H; injection H as <- <- end.
        eapply (g_idle u _ m0 b2 _ _ None l'); [reflexivity| | |eassumption|exact H7|exact Er|].
        -- reflexivity.
        -- cbn [b_fut]. apply (frel_upd _ _ k _ _ (Some k) H5); [now right|exact I].
        -- cbn. now rewrite <- app_assoc.
      * exfalso. destruct (a_pc a); congruence.
    + injection E as <-. cbn [b_op] in Eo. injection Eo as <- <-. inversion H6; subst; cbn [starts threads] in *; try discriminate.
      exists (n + m0). split; [lia|]. match goal with H : b_op u b _ = _ |- _ => cbn [b_op] in H; injection H as <- <- end.
      apply (g_thread u _ _ b2 _ k a b n m0 ok l'); cbn; trivial. now rewrite <- app_assoc.
Qed.
Lemma good_fut u s N bF ans k s' : good u s N bF ans -> fut_step u s k = Some s' -> exists N', N = S N' /\ good u s' N' bF ans.
Proof.
  intros G E. unfold fut_step in E. destruct (s_fut s k) as [[a|]|] eqn:Ef; try discriminate.
  destruct G as [b w l H1 H2 H3 H4 H5 H6 H7|a0 b n m ok l H1 H2 H3 H4 H5 H6 H7 H8|k0 a0 b n m ok l H1 H2 H3 H4 H5 H6 H7 H8 H9 H10].
  - exfalso. now apply (no_thread s _ k a H3).
  - exfalso. now apply (no_thread s _ k a H3).
  - assert (EK : k = k0). { destruct (Nat.eq_dec k k0) as [|D]; [trivial|]. exfalso. specialize (H5 k ltac:(congruence)). rewrite Ef in H5. exact H5. }
    subst k0. rewrite Ef in H2. injection H2 as <-. inversion H3; subst.
    + exfalso. match goal with H : a_pc a = CDone |- _ => rewrite H in E end. discriminate.
    + match goal with H : act_step _ _ _ = _ |- _ => rewrite H in E end.
      assert (E' : Some (mkS p1 (upd (s_fut s) k (Some (FThread a1))) (s_now s) (s_todo s) (s_ans s)) = Some s') by (destruct (a_pc a); congruence). injection E' as <-.
      exists (n0 + m). split; [lia|]. apply (g_thread u _ _ bF _ k a1 b n0 m ok l); cbn; trivial.
      * now rewrite upd_same.
      * intros q Q. rewrite upd_other by congruence. now apply H5.
Qed.
Lemma good_step u s N bF ans w s' : good u s N bF ans -> sys_step u s w = Some s' -> exists N', N = S N' /\ good u s' N' bF ans.
Proof. destruct w; [apply good_main|apply good_fut]. Qed.
Lemma cost_0 u b prog : cost u b prog 0 -> prog = [].
Proof. intros H. now inversion H. Qed.
Lemma good_end u s bF ans : good u s 0 bF ans -> finished s /\ s_p s = at_b bF /\ s_ans s = ans.
Proof.
  intros [b w l H1 H2 H3 H4 H5 H6 H7|a0 b n m ok l H1 H2 H3 H4 H5 H6 H7 H8|k0 a0 b n m ok l H1 H2 H3 H4 H5 H6 H7 H8 H9 H10].
  - apply cost_0 in H4. unfold finished. rewrite H4 in *. cbn [b_prog] in H6. injection H6 as <- <-. rewrite app_nil_r in H7. now subst.
  - lia.
  - exfalso. destruct m as [|m]; [|lia]. apply cost_0 in H6. rewrite H6 in H7. discriminate.
Qed.
Lemma good_go u s N bF ans : good u s (S N) bF ans -> exists w s', sys_step u s w = Some s'.
Proof.
  intros [b w l H1 H2 H3 H4 H5 H6 H7|a0 b n m ok l H1 H2 H3 H4 H5 H6 H7 H8|k0 a0 b n m ok l H1 H2 H3 H4 H5 H6 H7 H8 H9 H10].
  - exists Main. cbn [sys_step]. unfold main_step. rewrite H1. destruct (s_todo s) as [|o r]; [inversion H4|]. destruct o as [| |j|k j p|k|k|]; try (now eexists).
    + destruct (s_fut s k); [now eexists|]. destruct (Bool.eqb _ _); now eexists.
    + pose proof (H3 k ltac:(discriminate)) as F. destruct (s_fut s k) as [[x|x]|], (b_fut b k) as [[y|y]|]; try contradiction; now eexists.
    + pose proof (H3 k ltac:(discriminate)) as F. destruct (s_fut s k) as [[x|x]|], (b_fut b k) as [[y|y]|]; try contradiction; now eexists.
  - exists Main. cbn [sys_step]. unfold main_step. rewrite H1. destruct (act_step u (s_p s) a0) as [p1 a1]. destruct (a_pc a0); now eexists.
  - inversion H3; subst.
    + exists Main. cbn [sys_step]. unfold main_step. rewrite H1. destruct (s_todo s) as [|o r]; [discriminate|]. cbn [tidy] in H7. destruct o; try contradiction.
      * destruct H7 as [-> _]. rewrite H2. match goal with H : a_pc _ = CDone |- _ => rewrite H end. now eexists.
      * destruct H7 as [-> _]. rewrite H2. match goal with H : a_pc _ = CDone |- _ => rewrite H end. now eexists.
      * now eexists.
    + exists (Thread k0). cbn [sys_step]. unfold fut_step. rewrite H2. match goal with H : act_step _ _ _ = _ |- _ => rewrite H end. destruct (a_pc a0); try congruence; now eexists.
Qed.
Lemma good_run u bF ans : forall ws s N s', good u s N bF ans -> sys_run u s ws = Some s' -> exists N', N = length ws + N' /\ good u s' N' bF ans.
Proof.
  induction ws as [|w ws IH]; intros s N s' G E; cbn [sys_run] in E; [injection E as <-; now exists N|].
  destruct (sys_step u s w) as [s1|] eqn:E1; [|discriminate]. destruct (good_step u s N bF ans w s1 G E1) as (N1 & -> & G1).
  destruct (IH s1 N1 s' G1 E) as (N' & -> & G'). exists N'. now split.
Qed.
Lemma good_new u prog : tidy None prog -> exists N, good u (sys_new prog) N (fst (b_prog u b_new prog)) (snd (b_prog u b_new prog)).
Proof.
  intros T. destruct (cost_ex u prog b_new) as (N & C). exists N. destruct (b_prog u b_new prog) as [bF l] eqn:E.
  apply (g_idle u _ N bF l b_new None l); cbn; trivial. intros k _. exact I.
Qed.

(** The user thread alone brings a call to its end *)
Lemma main_ends u : forall n s a p' ok, s_now s = Some a -> ends u (s_p s) a n p' ok ->
  exists a', sys_run u s (repeat Main n) = Some (mkS p' (s_fut s) (Some a') (s_todo s) (s_ans s)) /\ a_pc a' = CDone /\ a_ok a' = ok.
Proof.
  induction n as [|n IH]; intros s a p' ok Hn He; inversion He; subst.
  - exists a. destruct s as [p f now todo an]. cbn in *. subst now. now split.
  - cbn [repeat sys_run sys_step]. unfold main_step. rewrite Hn. match goal with H : act_step _ _ _ = _ |- _ => rewrite H end.
    assert (E : forall X : option sys, (match a_pc a with CDone => X | _ => Some (mkS p1 (s_fut s) (Some a1) (s_todo s) (s_ans s)) end) = Some (mkS p1 (s_fut s) (Some a1) (s_todo s) (s_ans s)))
      by (intros X; destruct (a_pc a); congruence). rewrite E.
    apply (IH (mkS p1 (s_fut s) (Some a1) (s_todo s) (s_ans s)) a1 p' ok); trivial.
Qed.
Lemma sys_run_app u : forall w1 w2 s, sys_run u s (w1 ++ w2) = match sys_run u s w1 with Some s1 => sys_run u s1 w2 | None => None end.
Proof. induction w1 as [|w w1 IH]; intros w2 s; cbn [app sys_run]; [reflexivity|]. destruct (sys_step u s w); trivial. Qed.
