(** Invariants of fences. *)
From Verif Require Import FenceSpec TimeoutProofs.
Local Open Scope nat_scope.
Local Open Scope list_scope.

Definition this (t : tst) : list tev := t_this (t_log t).
(** The elements *)
Record tt_inv (t : tst) : Prop := {
  tt_fresh : forall j, t_next t <= j -> t_job t j = JNone;
  tt_last : forall e j, last_body e (this t) = Some j -> j < t_next t;
  tt_late : forall e j, In (TLate e j) (this t) -> j < t_next t;
  tt_fut : forall e j, t_fut t e = Some j -> j < t_next t;
  tt_wait : forall e j, t_pc t e = XWait j -> t_strat t e <> Sync;
  tt_pc : forall e, t_strat t e <> Sync ->
    match t_pc t e with
    | XNot => last_body e (this t) = None
    | XBody _ => False
    | XWait j => last_body e (this t) = Some j /\ ~ In (TLate e j) (this t) /\ (t_fut t e = Some j \/ t_fut t e = None /\ exists r, t_job t j = JDone r)
    | XHold | XFin _ => (forall j, last_body e (this t) = Some j -> t_fut t e = Some j \/ t_fut t e = None /\ exists r, t_job t j = JDone r) /\ (last_body e (this t) = None -> In (TSkip e) (this t))
    end }.

Lemma tt_new n st up : tt_inv (t_new n st up).
Proof. constructor; cbn; try easy. Qed.

Lemma tt_take t e j r : tt_inv t -> t_fut t e = Some j -> t_job t j = JDone r -> tt_inv (take_fut t e).
Proof.
  intros [H0 H1 H2 H3 HW H4] Ef Ej. constructor; cbn [take_fut t_next t_job t_fut t_strat t_pc]; unfold this in *; cbn [take_fut t_log]; auto.
  - intros e' j' E. destruct (Nat.eq_dec e e') as [->|N]; [rewrite upd_same in E; discriminate|]. rewrite upd_other in E by auto. eauto.
  - intros e' S. specialize (H4 e' S). destruct (Nat.eq_dec e e') as [->|N].
    2: { rewrite upd_other by auto. exact H4. }
    rewrite upd_same. rewrite Ef in H4.
    destruct (t_pc t e') as [| |j'| |b]; try exact H4.
    + destruct H4 as [A [B C]]. split; [exact A|]. split; [exact B|]. right. split; [reflexivity|]. destruct C as [C|[C _]]; [|discriminate]. injection C as ->. eauto.
    + destruct H4 as [A B]. split; [|exact B]. intros j' L. right. split; [reflexivity|]. destruct (A j' L) as [C|[C _]]; [|discriminate]. injection C as ->. eauto.
    + destruct H4 as [A B]. split; [|exact B]. intros j' L. right. split; [reflexivity|]. destruct (A j' L) as [C|[C _]]; [|discriminate]. injection C as ->. eauto.
Qed.

(** What an event adds *)
Lemma last_app e lg l : (forall j, ~ In (TBody e j) lg) -> last_body e (lg ++ l) = last_body e l.
Proof.
  induction lg as [|x r IH]; [easy|]. intros H. assert (IH' : last_body e (r ++ l) = last_body e l) by (apply IH; intros j X; apply (H j); now right). destruct x; cbn [app last_body]; auto.
  destruct (Nat.eqb_spec e0 e) as [->|]; [exfalso; apply (H j); now left|exact IH'].
Qed.

Definition same_cfg (t t' : tst) : Prop := t_n t' = t_n t /\ t_strat t' = t_strat t /\ t_up t' = t_up t.
(** Steps other than the start of a run *)
Record tt_grow (t t' : tst) : Prop := {
  tg_cfg : same_cfg t t';
  tg_job : forall j r, t_job t j = JDone r -> t_job t' j = JDone r;
  tg_fin : forall e b, t_pc t e = XFin b -> t_pc t' e = XFin b /\ last_body e (this t') = last_body e (this t) /\ (forall j, In (TLate e j) (this t') <-> In (TLate e j) (this t)) /\ (In (TSkip e) (this t) -> In (TSkip e) (this t'));
  tg_fut : forall e b, t_pc t e = XFin b -> t_ph t = PGo -> t_fut t' e = t_fut t e }.

Lemma tt_grow_refl_log t t' : same_cfg t t' -> t_job t' = t_job t -> t_pc t' = t_pc t -> (t_ph t = PGo -> t_fut t' = t_fut t) -> (exists lg, t_log t' = lg ++ t_log t /\ forallb plain lg = true /\ (forall e j, ~ In (TBody e j) lg) /\ (forall e j, ~ In (TLate e j) lg) ) -> tt_grow t t'.
Proof.
  intros C J P F [lg [E [Pl [N1 N2]]]]. assert (Et : this t' = lg ++ this t) by (unfold this; rewrite E; apply this_app; exact Pl). constructor; auto.
  - intros j r H. rewrite J. exact H.
  - intros e b H. rewrite P, Et. split; [exact H|]. split; [apply last_app; intros j; apply N1|]. split; [intros j|]; rewrite in_app_iff; auto; split; auto; intros [X|X]; auto; exfalso; eapply N2; exact X.
  - intros e b _ G. now rewrite F.
Qed.
Lemma tt_keep t t' : tt_inv t -> same_cfg t t' -> t_next t' = t_next t -> (forall j r, t_job t j = JDone r -> t_job t' j = JDone r) -> (forall j, t_next t <= j -> t_job t' j = JNone) -> t_pc t' = t_pc t ->
  (forall e, t_fut t' e = t_fut t e \/ (t_fut t' e = None /\ exists j r, t_fut t e = Some j /\ t_job t j = JDone r)) ->
  (exists lg, t_log t' = lg ++ t_log t /\ (forallb plain lg = true \/ exists x, lg = [TEnd x] \/ exists a b c, lg = [TEnd x; TCollect a b c]) /\ (forall e j, ~ In (TBody e j) lg) /\ (forall e j, ~ In (TLate e j) lg)) -> tt_inv t'.
Proof.
  intros [H0 H1 H2 H3 HW H4] [_ [C _]] En J JN P F [lg [E [Pl [N1 N2]]]].
  assert (Et : this t' = lg ++ this t).
  { unfold this. rewrite E. destruct Pl as [Pl|[x [->|[a [b [c ->]]]]]]; [apply this_app; exact Pl| |]; reflexivity. }
  assert (EL : forall e, last_body e (this t') = last_body e (this t)) by (intros e; rewrite Et; apply last_app; intros j; apply N1).
  assert (EI : forall e j, In (TLate e j) (this t') <-> In (TLate e j) (this t)) by (intros e j; rewrite Et, in_app_iff; split; [intros [X|X]; [exfalso; eapply N2; exact X|exact X]|auto]).
  assert (ES : forall e, In (TSkip e) (this t) -> In (TSkip e) (this t')) by (intros e X; rewrite Et; apply in_or_app; now right).
  constructor.
  - intros j Hj. apply JN. rewrite <- En. exact Hj.
  - intros e j. rewrite EL, En. apply H1.
  - intros e j. rewrite EI, En. apply H2.
  - intros e j X. rewrite En. destruct (F e) as [Y|[Y _]]; [rewrite Y in X; eauto|congruence].
  - intros e j. rewrite C, P. apply HW.
  - intros e. rewrite C, P. intros S. specialize (H4 e S).
    assert (FW : forall j, t_fut t e = Some j \/ t_fut t e = None /\ (exists r, t_job t j = JDone r) -> t_fut t' e = Some j \/ t_fut t' e = None /\ (exists r, t_job t' j = JDone r)).
    { intros j [X|[X [r Y]]]; destruct (F e) as [Z|[Z [j' [r' [Z1 Z2]]]]].
      - left. congruence.
      - right. split; [exact Z|]. rewrite X in Z1. injection Z1 as <-. eauto.
      - right. split; [congruence|]. eauto.
      - rewrite X in Z1. discriminate. }
    destruct (t_pc t e); rewrite ?EL, ?EI; auto.
    + destruct H4 as [A [B D]]. auto.
    + destruct H4 as [A B]. split; [intros j X; apply FW, A, X|auto].
    + destruct H4 as [A B]. split; [intros j X; apply FW, A, X|auto].
Qed.

Lemma tt_call t e lg : tt_inv t -> (lg = [] \/ lg = [TAgain e]) -> (forall b, t_pc t e <> XFin b) -> tt_inv (call_body t e lg) /\ tt_grow t (call_body t e lg).
Proof.
  intros I Hlg Hpc. pose proof I as [H0 H1 H2 H3 HW H4]. set (t' := call_body t e lg).
  assert (Et : this t' = TBody e (t_next t) :: lg ++ this t).
  { unfold t', this, call_body. cbn [t_log t_this]. rewrite this_app by (destruct Hlg as [->| ->]; reflexivity). reflexivity. }
  assert (NB : forall e' j, ~ In (TBody e' j) lg) by (intros e' j; destruct Hlg as [->| ->]; cbn; intuition discriminate).
  assert (NL : forall e' j, ~ In (TLate e' j) lg) by (intros e' j; destruct Hlg as [->| ->]; cbn; intuition discriminate).
  assert (NS : forall e', ~ In (TSkip e') lg) by (intros e'; destruct Hlg as [->| ->]; cbn; intuition discriminate).
  assert (EL : forall e', e <> e' -> last_body e' (this t') = last_body e' (this t)).
  { intros e' N. rewrite Et. cbn [last_body]. destruct (Nat.eqb_spec e e'); [congruence|]. apply last_app. intros j. apply NB. }
  assert (EI : forall e' j, In (TLate e' j) (this t') <-> In (TLate e' j) (this t)).
  { intros e' j. rewrite Et. cbn [In]. rewrite in_app_iff. split; [intros [X|[X|X]]; [discriminate|exfalso; eapply NL; exact X|exact X]|auto]. }
  assert (ES : forall e', In (TSkip e') (this t') <-> In (TSkip e') (this t)).
  { intros e'. rewrite Et. cbn [In]. rewrite in_app_iff. split; [intros [X|[X|X]]; [discriminate|exfalso; eapply NS; exact X|exact X]|auto]. }
  assert (EN : t_next t' = S (t_next t)) by reflexivity.
  assert (EJ : forall j, j < t_next t -> t_job t' j = t_job t j) by (intros j Hj; unfold t', call_body; cbn [t_job]; rewrite upd_other by lia; reflexivity).
  assert (EP : forall e', e <> e' -> t_pc t' e' = t_pc t e') by (intros e' N; unfold t', call_body; cbn [t_pc]; rewrite upd_other by auto; reflexivity).
  assert (EF : forall e', e <> e' -> t_fut t' e' = t_fut t e').
  { intros e' N. unfold t', call_body. cbn [t_fut]. destruct (strategy_eqb (t_strat t e) Sync); [reflexivity|]. rewrite upd_other by auto. reflexivity. }
  assert (JD : forall j r, t_job t j = JDone r -> j < t_next t) by (intros j r X; destruct (Nat.lt_ge_cases j (t_next t)) as [Y|Y]; [exact Y|]; rewrite (H0 j Y) in X; discriminate).
  split.
  - constructor.
    + intros j Hj. rewrite EN in Hj. unfold t', call_body. cbn [t_job]. rewrite upd_other by lia. apply H0. lia.
    + intros e' j. rewrite EN. destruct (Nat.eq_dec e e') as [<-|N].
      * rewrite Et. cbn [last_body]. rewrite Nat.eqb_refl. intros X. injection X as <-. lia.
      * rewrite (EL e' N). intros X. apply H1 in X. lia.
    + intros e' j. rewrite EI, EN. intros X. apply H2 in X. lia.
    + intros e' j. rewrite EN. destruct (Nat.eq_dec e e') as [<-|N].
      * unfold t', call_body. cbn [t_fut]. destruct (strategy_eqb (t_strat t e) Sync); [intros X; apply H3 in X; lia|]. rewrite upd_same. intros X. injection X as <-. lia.
      * rewrite (EF e' N). intros X. apply H3 in X. lia.
    + intros e' j. change (t_strat t' e') with (t_strat t e'). destruct (Nat.eq_dec e e') as [<-|N]; [|rewrite (EP e' N); apply HW].
      unfold t', call_body. cbn [t_pc]. rewrite upd_same. destruct (t_strat t e); cbn; congruence.
    + intros e' S. change (t_strat t' e') with (t_strat t e') in S. destruct (Nat.eq_dec e e') as [<-|N].
      * assert (Es : strategy_eqb (t_strat t e) Sync = false) by (apply strategy_eqb_neq; exact S).
        assert (Ep : t_pc t' e = XWait (t_next t)) by (unfold t', call_body; cbn [t_pc]; rewrite upd_same, Es; reflexivity). rewrite Ep.
        split; [rewrite Et; cbn [last_body]; rewrite Nat.eqb_refl; reflexivity|]. split; [rewrite EI; intros X; apply H2 in X; lia|]. left. unfold t', call_body. cbn [t_fut]. rewrite Es, upd_same. reflexivity.
      * specialize (H4 e' S). rewrite (EP e' N), (EL e' N), (EF e' N).
        assert (FW : forall j, (t_fut t e' = Some j \/ t_fut t e' = None /\ (exists r, t_job t j = JDone r)) -> (t_fut t e' = Some j \/ t_fut t e' = None /\ (exists r, t_job t' j = JDone r))).
        { intros j [X|[X [r Y]]]; [now left|right; split; [exact X|]; exists r; rewrite EJ; [exact Y|eapply JD; exact Y]]. }
        destruct (t_pc t e'); rewrite ?EI, ?ES; auto.
        -- destruct H4 as [A [B D]]. auto.
        -- destruct H4 as [A B]. split; [intros j X; apply FW, A, X|exact B].
        -- destruct H4 as [A B]. split; [intros j X; apply FW, A, X|exact B].
  - constructor.
    + split; [reflexivity|]. split; reflexivity.
    + intros j r X. rewrite EJ; [exact X|eapply JD; exact X].
    + intros e' b X. assert (N : e <> e') by (intros <-; exact (Hpc b X)). rewrite (EP e' N), (EL e' N). do 2 (split; [auto|]). split; [intros j; apply EI|apply ES].
    + intros e' b X _. assert (N : e <> e') by (intros <-; exact (Hpc b X)). apply EF. exact N.
Qed.

(** An element goes on without a new body. *)
Lemma tt_elem t e p lg fu la : tt_inv t -> (forall b, t_pc t e <> XFin b) -> forallb plain lg = true -> (forall e' j, ~ In (TBody e' j) lg) ->
  (forall x, In x lg -> exists j r, x = TUse e j r \/ x = TLate e j \/ x = TSkip e) ->
  (forall j, In (TLate e j) lg -> last_body e (this t) = Some j) ->
  (forall e', e <> e' -> fu e' = t_fut t e') -> (fu e = t_fut t e \/ fu e = None) ->
  let t' := mkT (t_n t) (t_strat t) (t_up t) la fu (t_job t) (t_own t) (t_next t) (t_ph t) (upd (t_pc t) e p) (lg ++ t_log t) in
  match p with XHold | XFin _ => True | _ => False end ->
  (t_strat t e <> Sync ->
    match p with
    | XNot | XBody _ | XWait _ => False
    | XHold | XFin _ => (forall j, last_body e (this t) = Some j -> fu e = Some j \/ fu e = None /\ exists r, t_job t j = JDone r) /\ (last_body e (this t) = None -> In (TSkip e) (lg ++ this t))
    end) -> tt_inv t' /\ tt_grow t t'.
Proof.
  intros I Hpc Pl NB NE NL Fo Fe t' Hq Hp. pose proof I as [H0 H1 H2 H3 HW H4].
  assert (Et : this t' = lg ++ this t) by (unfold this, t'; cbn [t_log]; apply this_app; exact Pl).
  assert (EL : forall e', last_body e' (this t') = last_body e' (this t)) by (intros e'; rewrite Et; apply last_app; intros j; apply NB).
  assert (EI : forall e' j, e <> e' -> (In (TLate e' j) (this t') <-> In (TLate e' j) (this t))).
  { intros e' j N. rewrite Et, in_app_iff. split; [intros [X|X]; [|exact X]|auto]. destruct (NE _ X) as [a [r [Y|[Y|Y]]]]; try discriminate. congruence. }
  assert (ES : forall e', e <> e' -> (In (TSkip e') (this t') <-> In (TSkip e') (this t))).
  { intros e' N. rewrite Et, in_app_iff. split; [intros [X|X]; [|exact X]|auto]. destruct (NE _ X) as [a [r [Y|[Y|Y]]]]; try discriminate. congruence. }
  split.
  - constructor.
    + exact H0.
    + intros e' j. rewrite EL. apply H1.
    + intros e' j. rewrite Et, in_app_iff. intros [X|X]; [|exact (H2 _ _ X)]. destruct (NE _ X) as [a [r [Y|[Y|Y]]]]; try discriminate. injection Y as -> ->. change (t_next t') with (t_next t). apply (H1 e). apply NL. exact X.
    + intros e' j. change (t_fut t' e') with (fu e'). change (t_next t') with (t_next t). destruct (Nat.eq_dec e e') as [<-|N]; [|rewrite (Fo e' N); apply H3]. destruct Fe as [X|X]; rewrite X; [apply H3|discriminate].
    + intros e' j. change (t_strat t' e') with (t_strat t e'). change (t_pc t' e') with (upd (t_pc t) e p e'). destruct (Nat.eq_dec e e') as [<-|N]; [rewrite upd_same; intros ->; contradiction|rewrite upd_other by auto; apply HW].
    + intros e' S. change (t_strat t' e') with (t_strat t e') in S. change (t_fut t' e') with (fu e'). change (t_job t') with (t_job t). rewrite EL.
      change (t_pc t' e') with (upd (t_pc t) e p e'). destruct (Nat.eq_dec e e') as [<-|N].
      * rewrite upd_same. specialize (Hp S). rewrite <- Et in Hp. destruct p; try contradiction; exact Hp.
      * rewrite upd_other by auto. specialize (H4 e' S). rewrite (Fo e' N). destruct (t_pc t e'); rewrite ?(EI e') by exact N; rewrite ?(ES e') by exact N; exact H4.
  - constructor.
    + split; [reflexivity|]. split; reflexivity.
    + auto.
    + intros e' b X. assert (N : e <> e') by (intros <-; exact (Hpc b X)). change (t_pc t' e') with (upd (t_pc t) e p e'). rewrite upd_other by auto. rewrite EL. do 2 (split; [auto|]). split; [intros j; apply EI; exact N|apply ES; exact N].
    + intros e' b X _. assert (N : e <> e') by (intros <-; exact (Hpc b X)). apply Fo. exact N.
Qed.

Lemma tt_step t l t' : tt_inv t -> l <> TLRun -> t_step t l = Some t' -> tt_inv t' /\ tt_grow t t'.
Proof.
  intros I Hl H. pose proof I as [H0 H1 H2 H3 HW H4]. destruct l as [| |e b|j r|c]; cbn [t_step] in H; [congruence| | | |].
  - destruct (t_ph t) as [| |[|e todo] ok] eqn:Ph; [discriminate| | |].
    + destruct (t_done t); [|discriminate]. injection H as <-. split.
      * eapply tt_keep; [exact I|split; [|split]; reflexivity|reflexivity|auto|auto|reflexivity|auto|]. exists []. split; [reflexivity|]. split; [now left|]. split; intros a x [].
      * apply tt_grow_refl_log; auto; [split; [|split]; reflexivity|]. exists []. do 2 (split; [reflexivity|]). split; intros a; intros; intros [].
    + injection H as <-. split.
      * eapply tt_keep; [exact I|split; [|split]; reflexivity|reflexivity|auto|auto|reflexivity|auto|]. eexists. split; [reflexivity|]. split; [right; eauto|]. split; intros a x [X|[]]; discriminate.
      * constructor; auto; [split; [|split]; reflexivity|]. intros e b X. cbn. split; [exact X|]. unfold this; cbn. split; [reflexivity|]. split; [intros j|auto]; split; auto; intros [Y|Y]; auto; discriminate.
    + assert (G : forall la fut ok' lg, (fut = t_fut t \/ exists j r, fut = upd (t_fut t) e None /\ t_fut t e = Some j /\ t_job t j = JDone r) -> (lg = [] \/ exists j r, lg = [TCollect e j r]) ->
        let t' := mkT (t_n t) (t_strat t) (t_up t) la fut (t_job t) (t_own t) (t_next t) (PReset todo ok') (t_pc t) (TReset e :: lg ++ t_log t) in tt_inv t' /\ tt_grow t t').
      { intros la fut ok' lg Hf Hlg. cbn zeta. split.
        - eapply tt_keep; [exact I|split; [|split]; reflexivity|reflexivity|auto|auto|reflexivity| |].
          + intros e'. cbn [t_fut]. destruct Hf as [->|[j [r [-> [Ef Ej]]]]]; [now left|]. destruct (Nat.eq_dec e e') as [<-|N]; [|rewrite upd_other by auto; now left]. rewrite upd_same. right. eauto.
          + exists (TReset e :: lg). split; [reflexivity|]. destruct Hlg as [->|[j [r ->]]]; (split; [now left|]); split; intros a x X; cbn in X; intuition discriminate.
        - apply tt_grow_refl_log; [split; [|split]; reflexivity|reflexivity|reflexivity|rewrite Ph; discriminate|]. exists (TReset e :: lg). split; [reflexivity|]. destruct Hlg as [->|[j [r ->]]]; (split; [reflexivity|]); split; intros a; intros; cbn; intuition discriminate. }
      destruct (strategy_eqb (t_strat t e) HoldByPipeline); [|injection H as <-; apply (G _ (t_fut t) ok []); now left].
      destruct (t_fut t e) as [j|] eqn:Ef; [|injection H as <-; apply (G _ (t_fut t) ok []); now left].
      destruct (t_job t j) as [| | |[| |]] eqn:Ej; try discriminate; injection H as <-.
      * apply (G _ _ _ [TCollect e j ROk]); [right; eauto|right; eauto].
      * apply (G _ _ _ [TCollect e j RErr]); [right; eauto|right; eauto].
      * split.
        -- eapply tt_keep; [exact I|split; [|split]; reflexivity|reflexivity|auto|auto|reflexivity| |].
           ++ intros e'. cbn [t_fut]. destruct (Nat.eq_dec e e') as [<-|N]; [|rewrite upd_other by auto; now left]. rewrite upd_same. right. eauto 10.
           ++ exists [TEnd EndThrow; TCollect e j RThrow]. split; [reflexivity|]. split; [right; eauto 10|]. split; intros a x X; cbn in X; intuition discriminate.
        -- constructor; auto; [split; [|split]; reflexivity| |].
           ++ intros e' b X. cbn. split; [exact X|]. unfold this; cbn. split; [reflexivity|]. split; [intros k|auto]; split; auto; intros [Y|[Y|Y]]; auto; discriminate.
           ++ intros e' b _ X. rewrite Ph in X. discriminate.
  - destruct ((e <? t_n t) && in_go (t_ph t)); [|discriminate]. specialize (H4 e). specialize (HW e). destruct (t_pc t e) as [|j|j| |ok] eqn:Pc; [| | | |discriminate].
    + assert (Hpc : forall b, t_pc t e <> XFin b) by (intros x; rewrite Pc; discriminate). destruct (is_timeout t e); injection H as <-; [|apply tt_call; auto].
      apply (tt_elem t e (XFin true) [TSkip e] (t_fut t) (t_late t) I Hpc); auto.
      * intros e' j [X|[]]; discriminate.
      * intros x [<-|[]]. exists 0, ROk. auto.
      * intros j [X|[]]; discriminate.
      * intros S. specialize (H4 S). rewrite H4. split; [discriminate|]. intros _. now left.
    + assert (Hpc : forall b, t_pc t e <> XFin b) by (intros x; rewrite Pc; discriminate). destruct (t_job t j) as [| | |r] eqn:Ej; try discriminate. injection H as <-.
      apply (tt_elem t e (after r) [TUse e j r] (t_fut t) (t_late t) I Hpc); auto.
      * intros e' k [X|[]]; discriminate.
      * intros x [<-|[]]. eauto.
      * intros k [X|[]]; discriminate.
      * destruct r; exact Logic.I.
      * intros S. destruct (H4 S).
    + assert (Hpc : forall b, t_pc t e <> XFin b) by (intros x; rewrite Pc; discriminate). destruct (t_job t j) as [| | |r] eqn:Ej.
      4: { injection H as <-. apply (tt_elem t e (after r) [TUse e j r] (upd (t_fut t) e None) (t_late t) I Hpc); auto.
           - intros e' k [X|[]]; discriminate.
           - intros x [<-|[]]. eauto.
           - intros k [X|[]]; discriminate.
           - intros e' N. now rewrite upd_other by auto.
           - right. apply upd_same.
           - destruct r; exact Logic.I.
           - intros S. destruct (H4 S) as [A [B C]]. rewrite upd_same. assert (Q : (forall k, last_body e (this t) = Some k -> @None nat = Some k \/ @None nat = None /\ (exists x, t_job t k = JDone x)) /\ (last_body e (this t) = None -> In (TSkip e) ([TUse e j r] ++ this t))).
             { split; [intros k X; right; split; [reflexivity|]; rewrite A in X; injection X as <-; eauto|rewrite A; discriminate]. } destruct r; exact Q. }
      all: destruct b; [|discriminate]; destruct (strategy_eqb (t_strat t e) AsError) eqn:As; injection H as <-.
      all: match goal with |- tt_inv (mkT _ _ _ ?la _ _ _ _ _ (upd _ _ ?p) _) /\ _ => apply (tt_elem t e p [TLate e j] (t_fut t) la I Hpc) | |- tt_inv (set_tpc _ _ ?p _) /\ _ => apply (tt_elem t e p [TLate e j] (t_fut t) (t_late t) I Hpc) end; auto.
      all: try (intros e' k [X|[]]; discriminate).
      all: try (intros x [<-|[]]; exists j, ROk; now auto).
      all: specialize (HW j eq_refl); specialize (H4 HW).
      all: try (intros k [X|[]]; injection X as <-; apply H4).
      all: intros _; destruct H4 as [A [B C]]; rewrite A; split; [|discriminate]; intros k X; injection X as <-; destruct C as [C|[_ [r C]]]; [now left|rewrite C in Ej; discriminate].
    + assert (Hpc : forall b, t_pc t e <> XFin b) by (intros x; rewrite Pc; discriminate). destruct b; injection H as <-; [apply tt_call; auto|].
      apply (tt_elem t e (XFin true) [] (t_fut t) (t_late t) I Hpc); auto.
      * intros x [].
      * intros j [].
  - destruct (t_job t j) as [| | |x] eqn:Ej; try discriminate; injection H as <-.
    + split.
      * eapply tt_keep; [exact I|split; [|split]; reflexivity|reflexivity| | |reflexivity|auto|].
        -- intros k x X. cbn [t_job]. destruct (Nat.eq_dec j k) as [<-|N]; [congruence|now rewrite upd_other by auto].
        -- intros k Hk. cbn [t_job]. destruct (Nat.eq_dec j k) as [<-|N]; [rewrite (H0 j Hk) in Ej; discriminate|rewrite upd_other by auto; auto].
        -- exists []. split; [reflexivity|]. split; [now left|]. split; intros a y [].
      * constructor; [split; [|split]; reflexivity| |intros e b X; cbn; do 2 (split; [auto|]); split; [reflexivity|auto]|auto].
        intros k x X. cbn [t_job]. destruct (Nat.eq_dec j k) as [<-|N]; [congruence|now rewrite upd_other by auto].
    + split.
      * eapply tt_keep; [exact I|split; [|split]; reflexivity|reflexivity| | |reflexivity|auto|].
        -- intros k x X. cbn [t_job]. destruct (Nat.eq_dec j k) as [<-|N]; [congruence|now rewrite upd_other by auto].
        -- intros k Hk. cbn [t_job]. destruct (Nat.eq_dec j k) as [<-|N]; [rewrite (H0 j Hk) in Ej; discriminate|rewrite upd_other by auto; auto].
        -- exists [TRet j r]. split; [reflexivity|]. split; [now left|]. split; intros a y [X|[]]; discriminate.
      * constructor; [split; [|split]; reflexivity| | |auto].
        -- intros k x X. cbn [t_job]. destruct (Nat.eq_dec j k) as [<-|N]; [congruence|now rewrite upd_other by auto].
        -- intros e b X. cbn. split; [exact X|]. unfold this; cbn. split; [reflexivity|]. split; [intros k|auto]; split; auto; intros [Y|Y]; auto; discriminate.
  - destruct (t_n t <=? c); [|discriminate]. destruct (is_timeout t c); injection H as <-; split.
    1, 3: (eapply tt_keep; [exact I|split; [|split]; reflexivity|reflexivity|auto|auto|reflexivity|auto|]; eexists; split; [reflexivity|]; split; [now left|]; split; intros a x [X|[]]; discriminate).
    all: (apply tt_grow_refl_log; auto; [split; [|split]; reflexivity|]; eexists; split; [reflexivity|]; split; [reflexivity|]; split; intros a; intros; cbn; intuition discriminate).
Qed.

Lemma tt_run t t' : tt_inv t -> t_step t TLRun = Some t' -> tt_inv t' /\ same_cfg t t' /\ this t' = [] /\ t_job t' = t_job t /\ t_ph t' = PGo /\ (forall e, t_pc t' e = XNot).
Proof.
  intros [H0 H1 H2 H3 HW H4] H. cbn [t_step] in H. destruct (t_ph t); try discriminate. injection H as <-.
  split; [|split; [split; [|split]; reflexivity|]; cbn; auto]. constructor; cbn; try easy.
Qed.

(** The result of a late body stays until somebody takes it. *)
Definition keeps (t : tst) (e : nat) : Prop := forall j, last_body e (this t) = Some j -> In (TLate e j) (this t) -> t_fut t e = Some j.
Lemma keeps_step t l t' e : tt_inv t -> t_ph t = PGo -> l <> TLRun -> keeps t e -> t_step t l = Some t' -> keeps t' e.
Proof.
  intros I Ph Hl K H. pose proof I as [H0 H1 H2 H3 HW H4]. unfold keeps, this in *. destruct l as [| |e0 b|j r|c]; cbn [t_step] in H; [congruence| | | |].
  - rewrite Ph in H. destruct (t_done t); [|discriminate]. injection H as <-. exact K.
  - destruct ((e0 <? t_n t) && in_go (t_ph t)); [|discriminate].
    assert (CB : forall lg, (lg = [] \/ lg = [TAgain e0]) -> forall j, last_body e (t_this (t_log (call_body t e0 lg))) = Some j -> In (TLate e j) (t_this (t_log (call_body t e0 lg))) -> t_fut (call_body t e0 lg) e = Some j).
    { intros lg Hlg j. assert (Et : t_this (t_log (call_body t e0 lg)) = TBody e0 (t_next t) :: lg ++ t_this (t_log t)) by (cbn [call_body t_log t_this]; rewrite this_app by (destruct Hlg as [->| ->]; reflexivity); reflexivity).
      rewrite Et. intros A B. cbn [last_body] in A. destruct B as [B|B]; [discriminate|]. apply in_app_iff in B. destruct B as [B|B]; [destruct Hlg as [->| ->]; cbn in B; intuition discriminate|].
      destruct (Nat.eqb_spec e0 e) as [X|X].
      - injection A as <-. apply H2 in B. lia.
      - rewrite last_app in A by (intros k; destruct Hlg as [->| ->]; cbn; intuition discriminate). cbn [call_body t_fut]. destruct (strategy_eqb (t_strat t e0) Sync); [|rewrite upd_other by auto]; apply K; auto. }
    destruct (t_pc t e0) as [|j|j| |ok] eqn:Pc; [| | | |discriminate].
    + destruct (is_timeout t e0); injection H as <-; [|apply CB; now left]. cbn. intros j A [B|B]; [discriminate|]. auto.
    + destruct (t_job t j) as [| | |r] eqn:Ej; try discriminate. injection H as <-. cbn. intros k A [B|B]; [discriminate|]. auto.
    + pose proof (HW e0 j Pc) as S. specialize (H4 e0 S). rewrite Pc in H4. destruct H4 as [A4 [B4 C4]]. destruct (t_job t j) as [| | |r] eqn:Ej.
      4: { injection H as <-. cbn [t_log t_this last_body t_fut In]. intros k A [B|B]; [discriminate|]. destruct (Nat.eq_dec e0 e) as [X|X]; [|rewrite upd_other by auto; auto]. subst e. unfold this in *. rewrite A4 in A. injection A as <-. contradiction. }
      all: destruct b; [|discriminate]; destruct (strategy_eqb (t_strat t e0) AsError); injection H as <-; cbn; intros k A [B|B]; auto; injection B as <- <-; destruct C4 as [C|[_ [r C]]]; auto; rewrite C in Ej; discriminate.
    + destruct b; injection H as <-; [apply CB; now right|exact K].
  - destruct (t_job t j) as [| | |x] eqn:Ej; try discriminate; injection H as <-; cbn; [exact K|]. intros k A [B|B]; [discriminate|auto].
  - destruct (t_n t <=? c); [|discriminate]. destruct (is_timeout t c); injection H as <-; cbn; intros k A [B|B]; try discriminate; auto.
Qed.
Lemma step_phase t l t' : t_step t l = Some t' -> l <> TLRun -> t_ph t' = PGo -> t_ph t = PGo.
Proof.
  intros H Hl P. destruct l as [| |e0 b|j r|c]; cbn [t_step] in H; [congruence| | | |].
  - destruct (t_ph t) as [| |[|e todo] ok]; [discriminate|reflexivity|injection H as <-; discriminate|].
    destruct (strategy_eqb _ _); [|injection H as <-; discriminate]. destruct (t_fut t e); [|injection H as <-; discriminate]. destruct (t_job t n) as [| | |[| |]]; try discriminate; injection H as <-; discriminate.
  - destruct (t_ph t); try reflexivity; rewrite andb_false_r in H; discriminate.
  - destruct (t_job t j); try discriminate; injection H as <-; exact P.
  - destruct (t_n t <=? c); [|discriminate]. destruct (is_timeout t c); injection H as <-; exact P.
Qed.
Lemma go_phase t l t' : t_step t l = Some t' -> l <> TLRun -> l <> TLOwner -> t_ph t' = t_ph t.
Proof.
  intros H Hl Ho. destruct l as [| |e0 b|j r|c]; cbn [t_step] in H; [congruence|congruence| | |].
  - destruct ((e0 <? t_n t) && in_go (t_ph t)); [|discriminate]. destruct (t_pc t e0) as [|j|j| |ok]; [| | | |discriminate].
    + destruct (is_timeout t e0); injection H as <-; reflexivity.
    + destruct (t_job t j); try discriminate; injection H as <-; reflexivity.
    + destruct (t_job t j); [| | |injection H as <-; reflexivity]; destruct b; try discriminate; destruct (strategy_eqb _ _); injection H as <-; reflexivity.
    + destruct b; injection H as <-; reflexivity.
  - destruct (t_job t j); try discriminate; injection H as <-; reflexivity.
  - destruct (t_n t <=? c); [|discriminate]. destruct (is_timeout t c); injection H as <-; reflexivity.
Qed.

(** A waited-for element is dealt with. *)
Definition dealt (t : tst) (e : nat) : Prop := forall j, last_body e (this t) = Some j -> exists r, t_job t j = JDone r.
Definition clean (t : tst) (e : nat) : Prop := forall j, last_body e (this t) = Some j -> In (TLate e j) (this t) -> t_job t j = JDone ROk.
(** Some waited-for body went wrong. *)
Definition wrong (t : tst) (es : list nat) (P : outcome -> Prop) : Prop :=
  exists e j r, In e es /\ (last_body e (this t) = Some j \/ last_body e (this t) = None /\ In (TSkip e) (this t)) /\ t_job t j = JDone r /\ P r.
Record ff_inv (s : fst_) : Prop := {
  ff_t : tt_inv (f_t s);
  ff_reset : forall todo ok, t_ph (f_t s) = PReset todo ok -> forall f, f < f_n s -> f_idle (f_pc s f) = true /\ (ok = true -> f_pc s f = FDone true);
  ff_out : t_ph (f_t s) = POut -> forall f, f < f_n s -> f_idle (f_pc s f) = true;
  ff_after : forall f, f < f_n s -> f_pc s f <> FNot -> forall e, In e (f_after s f) -> t_pc (f_t s) e = XFin true;
  ff_pc : forall f, f < f_n s ->
    match f_pc s f with
    | FNot => True
    | FAt todo ok => exists dn, f_wait s f = dn ++ todo /\ (forall e, In e dn -> dealt (f_t s) e) /\ (ok = false -> wrong (f_t s) dn (fun r => r = RErr))
    | FDone ok => ((forall e, In e (f_wait s f) -> dealt (f_t s) e) \/ (ok = false /\ wrong (f_t s) (f_wait s f) (fun r => r = RThrow))) /\ (ok = false -> wrong (f_t s) (f_wait s f) (fun r => r <> ROk))
    end }.
Definition pending (s : fst_) (e : nat) : Prop := forall f, f < f_n s -> In e (f_wait s f) -> f_pc s f = FNot \/ exists todo ok, f_pc s f = FAt todo ok /\ In e todo.
Record fs_inv (s : fst_) : Prop := {
  fs_late : t_ph (f_t s) = PGo -> forall e, pending s e -> keeps (f_t s) e;
  fs_pc : forall f, f < f_n s ->
    match f_pc s f with
    | FAt todo true => exists dn, f_wait s f = dn ++ todo /\ (forall e, In e dn -> clean (f_t s) e)
    | FDone true => forall e, In e (f_wait s f) -> clean (f_t s) e
    | _ => True
    end }.

Lemma dealt_grow t t' e : tt_grow t t' -> t_pc t e = XFin true -> dealt t e -> dealt t' e.
Proof. intros G P D j H. destruct (tg_fin _ _ G e true P) as [_ [E _]]. rewrite E in H. destruct (D j H) as [r X]. exists r. apply (tg_job _ _ G). exact X. Qed.
Lemma clean_grow t t' e : tt_grow t t' -> t_pc t e = XFin true -> clean t e -> clean t' e.
Proof. intros G P D j H L. destruct (tg_fin _ _ G e true P) as [_ [E [EL _]]]. rewrite E in H. apply EL in L. apply (tg_job _ _ G). auto. Qed.
Lemma wrong_grow t t' es P : tt_grow t t' -> (forall e, In e es -> t_pc t e = XFin true) -> wrong t es P -> wrong t' es P.
Proof.
  intros G Q [e [j [r [Ie [L [J X]]]]]]. destruct (tg_fin _ _ G e true (Q e Ie)) as [_ [E [_ ES]]]. exists e, j, r. rewrite E. do 1 (split; [exact Ie|]). split; [|split; [apply (tg_job _ _ G); exact J|exact X]].
  destruct L as [L|[L S]]; auto.
Qed.
Lemma wrong_sub t es es' (P Q : outcome -> Prop) : (forall e, In e es -> In e es') -> (forall r, P r -> Q r) -> wrong t es P -> wrong t es' Q.
Proof. intros A B [e [j [r [Ie [L [J X]]]]]]. exists e, j, r. auto 10. Qed.

Definition cfg (s s' : fst_) : Prop := f_n s' = f_n s /\ f_wait s' = f_wait s /\ f_after s' = f_after s /\ same_cfg (f_t s) (f_t s').
Lemma cfg_trans a b c : cfg a b -> cfg b c -> cfg a c.
Proof. intros [A1 [A2 [A3 [A4 [A5 A6]]]]] [B1 [B2 [B3 [B4 [B5 B6]]]]]. unfold cfg, same_cfg. repeat split; congruence. Qed.
Lemma f_step_cfg s l s' : tt_inv (f_t s) -> f_step s l = Some s' -> cfg s s'.
Proof.
  intros I H. assert (R : forall t, same_cfg (f_t s) t -> cfg s (set_t s t)) by (intros t X; split; [|split; [|split]]; auto; reflexivity).
  assert (T : forall l t, t_step (f_t s) l = Some t -> same_cfg (f_t s) t).
  { intros l0 t X. destruct l0; [destruct (tt_run _ _ I X) as [_ [Y _]]; exact Y| | | |]; (eapply tg_cfg, tt_step; [exact I| |exact X]; discriminate). }
  destruct l as [l|f].
  - destruct l; cbn [f_step] in H; [| |destruct (t_step (f_t s) _) eqn:E; [|discriminate]; injection H as <-; eauto ..].
    + destruct (t_step (f_t s) TLRun) eqn:E; [|discriminate]. injection H as <-. split; [|split; [|split]]; try reflexivity. cbn [f_t]. eauto.
    + destruct (t_ph (f_t s)); [|destruct (f_done s); [|discriminate]; injection H as <-; apply R; split; [|split]; reflexivity|]; (destruct (t_step (f_t s) TLOwner) eqn:E; [|discriminate]; injection H as <-; eauto).
  - cbn [f_step] in H. assert (R' : forall t f p lg, same_cfg (f_t s) t -> cfg s (set_fpc s t f p lg)) by (intros t f' p lg X; split; [|split; [|split]]; auto; reflexivity).
    assert (S0 : same_cfg (f_t s) (f_t s)) by (split; [|split]; reflexivity). assert (S1 : forall e, same_cfg (f_t s) (take_fut (f_t s) e)) by (intros e; split; [|split]; reflexivity).
    destruct ((f <? f_n s) && in_go (t_ph (f_t s))); [|discriminate]. destruct (f_pc s f) as [|[|e r] ok|ok]; [| | |discriminate].
    + destruct (forallb _ _); [|discriminate]. injection H as <-. auto.
    + injection H as <-. auto.
    + destruct (t_fut (f_t s) e) as [j|]; [|injection H as <-; auto]. destruct (t_job (f_t s) j) as [| | |[| |]]; try discriminate; injection H as <-; auto.
Qed.

Section fenced.
  Variables (n nf : nat) (st : nat -> strategy) (up wt af : nat -> list nat).
  Hypothesis FA : fences_after n nf st wt af.
  Definition here (s : fst_) : Prop := f_n s = nf /\ f_wait s = wt /\ f_after s = af /\ t_n (f_t s) = n /\ t_strat (f_t s) = st.
  Lemma here_cfg s s' : here s -> cfg s s' -> here s'.
  Proof. intros [A1 [A2 [A3 [A4 A5]]]] [B1 [B2 [B3 [B4 [B5 B6]]]]]. unfold here. repeat split; congruence. Qed.

  Lemma ff_t_step s t' : here s -> ff_inv s -> tt_inv t' -> tt_grow (f_t s) t' -> (t_ph t' = PGo -> t_ph (f_t s) = PGo) ->
    (forall todo ok, t_ph t' = PReset todo ok -> forall f, f < nf -> f_idle (f_pc s f) = true /\ (ok = true -> f_pc s f = FDone true)) ->
    (t_ph t' = POut -> forall f, f < nf -> f_idle (f_pc s f) = true) -> ff_inv (set_t s t').
  Proof.
    intros [E1 [E2 [E3 [E4 E5]]]] [I1 I2 I2' I3 I4] It G _ Hr Ho. constructor; cbn [set_t f_t f_n f_wait f_after f_pc]; auto.
    - rewrite E1. exact Hr.
    - rewrite E1. exact Ho.
    - intros f Hf P e Ie. exact (proj1 (tg_fin _ _ G e true (I3 f Hf P e Ie))).
    - intros f Hf. specialize (I3 f Hf). specialize (I4 f Hf). rewrite E1 in Hf. destruct (FA f Hf) as [_ [FW _]].
      assert (FX : f_pc s f <> FNot -> forall e, In e (f_wait s f) -> t_pc (f_t s) e = XFin true) by (intros P e Ie; apply I3; [exact P|]; rewrite E3; apply FW; rewrite <- E2; exact Ie).
      destruct (f_pc s f) as [|todo ok|ok]; [exact Logic.I| |]; assert (FY := FX ltac:(discriminate)).
      + destruct I4 as [dn [A [B C]]]. exists dn. split; [exact A|]. assert (D : forall e, In e dn -> t_pc (f_t s) e = XFin true) by (intros e Ie; apply FY; rewrite A; apply in_or_app; now left).
        split; [intros e Ie; eapply dealt_grow; eauto|]. intros X. eapply wrong_grow; eauto.
      + destruct I4 as [A B]. split; [|intros X; eapply wrong_grow; eauto]. destruct A as [A|[A C]]; [left; intros e Ie; eapply dealt_grow; eauto|right; split; [exact A|eapply wrong_grow; eauto]].
  Qed.

  (** Taking a result *)
  Lemma grow_taken t e : t_ph t = PGo -> same_cfg t (take_fut t e) /\ (forall j r, t_job t j = JDone r -> t_job (take_fut t e) j = JDone r).
  Proof. intros _. split; [split; [|split]; reflexivity|auto]. Qed.
  Lemma ff_fence s f s' : here s -> ff_inv s -> f_step s (FStep f) = Some s' -> ff_inv s'.
  Proof.
    intros HH I H. pose proof HH as [E1 [E2 [E3 [E4 E5]]]]. pose proof I as [I1 I2 I2' I3 I4]. cbn [f_step] in H.
    destruct (f <? f_n s) eqn:Lf; [|discriminate]. apply Nat.ltb_lt in Lf. destruct (t_ph (f_t s)) eqn:Ph; cbn [in_go andb] in H; try discriminate.
    assert (GEN : forall t p lg, tt_inv t -> t_ph t = PGo -> t_pc t = t_pc (f_t s) -> t_job t = t_job (f_t s) -> t_log t = t_log (f_t s) ->
      (p <> FNot -> forall e, In e (f_after s f) -> t_pc (f_t s) e = XFin true) ->
      match p with
      | FNot => True
      | FAt todo ok => exists dn, f_wait s f = dn ++ todo /\ (forall e, In e dn -> dealt (f_t s) e) /\ (ok = false -> wrong (f_t s) dn (fun r => r = RErr))
      | FDone ok => ((forall e, In e (f_wait s f) -> dealt (f_t s) e) \/ (ok = false /\ wrong (f_t s) (f_wait s f) (fun r => r = RThrow))) /\ (ok = false -> wrong (f_t s) (f_wait s f) (fun r => r <> ROk))
      end -> ff_inv (set_fpc s t f p lg)).
    { intros t p lg It Pt Ep Ej El Ha Hp.
      assert (ED : forall e, dealt (f_t s) e -> dealt t e) by (intros e; unfold dealt, this; rewrite El, Ej; auto).
      assert (EW : forall es P, wrong (f_t s) es P -> wrong t es P) by (intros es P; unfold wrong, this; rewrite El, Ej; auto).
      constructor; cbn [set_fpc f_t f_n f_wait f_after f_pc]; auto; try (rewrite Pt; discriminate).
      - intros g Hg. destruct (Nat.eq_dec f g) as [<-|N]; [rewrite upd_same|rewrite upd_other by auto]; rewrite Ep; [exact Ha|exact (I3 g Hg)].
      - intros g Hg. specialize (I4 g Hg). destruct (Nat.eq_dec f g) as [<-|N].
        + rewrite upd_same. destruct p as [|todo ok|ok]; [exact Logic.I| |].
          * destruct Hp as [dn [A [B C]]]. exists dn. auto.
          * destruct Hp as [A B]. split; [|auto]. destruct A as [A|[A C]]; auto.
        + rewrite upd_other by auto. destruct (f_pc s g) as [|todo ok|ok]; [exact Logic.I| |].
          * destruct I4 as [dn [A [B C]]]. exists dn. auto.
          * destruct I4 as [A B]. split; [|auto]. destruct A as [A|[A C]]; auto. }
    specialize (I3 f Lf). specialize (I4 f Lf). pose proof Lf as Lf'. rewrite E1 in Lf'. destruct (FA f Lf') as [_ [FW _]].
    assert (FX : f_pc s f <> FNot -> forall e, In e (f_wait s f) -> t_pc (f_t s) e = XFin true /\ t_strat (f_t s) e <> Sync) by (intros P e Ie; rewrite E2 in Ie; rewrite E5; split; [apply I3; [exact P|]; rewrite E3|]; apply FW; exact Ie).
    destruct (f_pc s f) as [|[|e r] ok|ok] eqn:Pc; [| | |discriminate].
    - destruct (forallb _ _) eqn:Al; [|discriminate]. injection H as <-. apply GEN; auto.
      + intros _ e Ie. rewrite forallb_forall in Al. specialize (Al e Ie). destruct (t_pc (f_t s) e) as [| | | |[|]]; try discriminate. reflexivity.
      + exists []. split; [reflexivity|]. split; [intros e []|discriminate].
    - injection H as <-. apply GEN; auto; [intros _; apply I3; discriminate|]. destruct I4 as [dn [A [B C]]]. rewrite app_nil_r in A. rewrite A. split; [left; exact B|]. intros X. eapply wrong_sub; [| |exact (C X)]; auto. intros r ->. discriminate.
    - destruct I4 as [dn [A [B C]]]. assert (FY := FX ltac:(discriminate)). assert (Ie : In e (f_wait s f)) by (rewrite A; apply in_or_app; right; now left). destruct (FY e Ie) as [Pe Se]. pose proof (tt_pc _ I1 e Se) as Q. rewrite Pe in Q. destruct Q as [Q1 Q2].
      assert (A' : f_wait s f = (dn ++ [e]) ++ r) by (rewrite <- app_assoc; exact A).
      destruct (t_fut (f_t s) e) as [j|] eqn:Ef.
      + assert (HL : last_body e (this (f_t s)) = Some j \/ last_body e (this (f_t s)) = None /\ In (TSkip e) (this (f_t s))).
        { destruct (last_body e (this (f_t s))) as [j'|] eqn:L; [|right; auto]. left. destruct (Q1 j' eq_refl) as [X|[X _]]; congruence. }
        assert (HD : forall x, t_job (f_t s) j = JDone x -> dealt (f_t s) e).
        { intros x X j' L. destruct HL as [HL|[HL _]]; [|congruence]. exists x. congruence. }
        assert (HI : forall x, t_job (f_t s) j = JDone x -> tt_inv (take_fut (f_t s) e)) by (intros x X; eapply tt_take; eauto).
        destruct (t_job (f_t s) j) as [| | |x] eqn:Ej; try discriminate. destruct x; injection H as <-.
        * apply GEN; auto; [eauto|intros _; apply I3; discriminate|]. exists (dn ++ [e]). split; [exact A'|]. split; [intros e' X; apply in_app_iff in X; destruct X as [X|[<-|[]]]; eauto|].
          intros X. rewrite andb_true_r in X. eapply wrong_sub; [| |exact (C X)]; auto. intros e' Y. apply in_or_app; now left.
        * apply GEN; auto; [eauto|intros _; apply I3; discriminate|]. exists (dn ++ [e]). split; [exact A'|]. split; [intros e' X; apply in_app_iff in X; destruct X as [X|[<-|[]]]; eauto|].
          intros _. exists e, j, RErr. split; [apply in_or_app; right; now left|]. auto.
        * apply GEN; auto; [eauto|intros _; apply I3; discriminate|]. assert (W : wrong (f_t s) (f_wait s f) (fun x => x = RThrow)) by (exists e, j, RThrow; auto). split; [right; auto|]. intros _. eapply wrong_sub; [| |exact W]; auto. intros x ->. discriminate.
      + injection H as <-. apply GEN; auto; [intros _; apply I3; discriminate|]. exists (dn ++ [e]). split; [exact A'|]. split; [|intros X; eapply wrong_sub; [| |exact (C X)]; auto; intros e' Y; apply in_or_app; now left].
        intros e' X. apply in_app_iff in X. destruct X as [X|[<-|[]]]; [auto|]. intros j L. destruct (Q1 j L) as [Y|[_ Y]]; [discriminate|exact Y].
  Qed.

  Lemma ff_step s l s' : here s -> ff_inv s -> f_step s l = Some s' -> ff_inv s'.
  Proof.
    intros HH I H. destruct l as [l|f]; [|eapply ff_fence; eauto]. pose proof HH as [E1 _]. pose proof I as [I1 I2 I2' I3 I4].
    assert (OTHER : forall t, l <> TLRun -> l <> TLOwner -> t_step (f_t s) l = Some t -> ff_inv (set_t s t)).
    { intros t N1 N2 E. destruct (tt_step _ _ _ I1 N1 E) as [It G]. pose proof (go_phase _ _ _ E N1 N2) as Ep. apply ff_t_step; auto; rewrite Ep; auto; rewrite <- E1; auto. }
    destruct l as [| |e b|j r|c]; cbn [f_step] in H.
    3-5: (destruct (t_step (f_t s) _) as [t|] eqn:E; [|discriminate]; injection H as <-; apply OTHER; [discriminate|discriminate|reflexivity]).
    - destruct (t_step (f_t s) TLRun) as [t|] eqn:E; [|discriminate]. injection H as <-. destruct (tt_run _ _ I1 E) as [It [_ [_ [_ [Pt _]]]]]. constructor; cbn [f_t f_n f_wait f_after f_pc]; auto; try congruence.
    - destruct (t_ph (f_t s)) as [| |todo ok] eqn:Ph.
      + destruct (t_step (f_t s) TLOwner) as [t|] eqn:E; [|discriminate]. injection H as <-. cbn [t_step] in E. rewrite Ph in E. discriminate E.
      + destruct (f_done s) eqn:Dn; [|discriminate]. injection H as <-.
        assert (It : tt_inv (set_ph (f_t s) (PReset (filter (fun e => negb (strategy_eqb (t_strat (f_t s) e) Sync)) (seq 0 (t_n (f_t s)))) (t_ok (f_t s) && f_none_bad s)) []) /\ tt_grow (f_t s) (set_ph (f_t s) (PReset (filter (fun e => negb (strategy_eqb (t_strat (f_t s) e) Sync)) (seq 0 (t_n (f_t s)))) (t_ok (f_t s) && f_none_bad s)) [])).
        { split.
          - eapply tt_keep; [exact I1|split; [|split]; reflexivity|reflexivity|auto|apply (tt_fresh _ I1)|reflexivity|auto|]. exists []. split; [reflexivity|]. split; [now left|]. split; intros a x [].
          - apply tt_grow_refl_log; auto; [split; [|split]; reflexivity|]. exists []. do 2 (split; [reflexivity|]). split; intros a; intros; intros []. }
        destruct It as [It G]. apply ff_t_step; auto; cbn [set_ph t_ph]; try discriminate.
        intros todo ok X f Hf. injection X as _ <-. unfold f_done, f_all in Dn. rewrite <- E1 in Hf. assert (Hs : In f (seq 0 (f_n s))) by (apply in_seq; lia).
        apply orb_prop in Dn. destruct Dn as [Dn|Dn].
        * apply andb_prop in Dn. destruct Dn as [_ Dn]. rewrite forallb_forall in Dn. specialize (Dn f Hs). split; [destruct (f_pc s f); try discriminate; reflexivity|].
          intros X. apply andb_prop in X. destruct X as [_ X]. unfold f_none_bad, f_all in X. rewrite forallb_forall in X. specialize (X f Hs). destruct (f_pc s f) as [| |[|]]; try discriminate. reflexivity.
        * apply andb_prop in Dn. destruct Dn as [Dn D3]. apply andb_prop in Dn. destruct Dn as [D1 D2]. rewrite forallb_forall in D3. split; [exact (D3 f Hs)|]. intros X. apply andb_prop in X. destruct X as [X Y]. rewrite X, Y in D1. discriminate.
      + destruct (t_step (f_t s) TLOwner) as [t|] eqn:E; [|discriminate]. injection H as <-. destruct (tt_step _ _ _ I1 (ltac:(discriminate) : TLOwner <> TLRun) E) as [It G]. specialize (I2 todo ok eq_refl). rewrite E1 in I2.
        assert (Q : (exists todo' ok', t_ph t = PReset todo' ok' /\ (ok' = true -> ok = true)) \/ t_ph t = POut).
        { cbn [t_step] in E. rewrite Ph in E. destruct todo as [|e todo]; [injection E as <-; now right|]. destruct (strategy_eqb _ _); [|injection E as <-; left; cbn; eauto]. destruct (t_fut (f_t s) e) as [j|]; [|injection E as <-; left; cbn; eauto].
          destruct (t_job (f_t s) j) as [| | |[| |]]; try discriminate; injection E as <-; [left|left|right; reflexivity]; cbn; do 2 eexists; (split; [reflexivity|]); intros X; apply andb_prop in X; tauto. }
        apply ff_t_step; auto.
        * intros X. destruct Q as [[a [b [Y _]]]|Y]; congruence.
        * intros a b X f Hf. destruct Q as [[a' [b' [Y Z]]]|Y]; [|congruence]. rewrite X in Y. injection Y as <- <-. destruct (I2 f Hf) as [J1 J2]. auto.
        * intros _ f Hf. apply I2. exact Hf.
  Qed.

  Lemma ff_new : ff_inv (f_new n st up nf wt af).
  Proof. constructor; cbn [f_new f_t f_n f_pc]; try easy. Qed.
  Lemma ff_run ls : forall s s', here s -> ff_inv s -> f_run s ls = Some s' -> here s' /\ ff_inv s'.
  Proof.
    induction ls as [|l r IH]; intros s s' HH I H; cbn [f_run] in H; [injection H as <-; auto|]. destruct (f_step s l) as [s1|] eqn:E; [|discriminate].
    eapply IH; [| |exact H]; [eapply here_cfg; [exact HH|]; eapply f_step_cfg; [apply I|exact E]|eapply ff_step; eauto].
  Qed.
  Lemma here_new : here (f_new n st up nf wt af). Proof. repeat split. Qed.

  Hypothesis ONE : one_fence nf wt.
  Lemma fs_fence s f s' : here s -> ff_inv s -> fs_inv s -> f_step s (FStep f) = Some s' -> fs_inv s'.
  Proof.
    intros HH I [J1 J2] H. pose proof HH as [E1 [E2 [E3 [E4 E5]]]]. pose proof I as [I1 I2 I2' I3 I4]. cbn [f_step] in H.
    destruct (f <? f_n s) eqn:Lf; [|discriminate]. apply Nat.ltb_lt in Lf. destruct (t_ph (f_t s)) eqn:Ph; cbn [in_go andb] in H; try discriminate. specialize (J1 eq_refl).
    pose proof Lf as Lf'. rewrite E1 in Lf'. destruct (FA f Lf') as [ND [FW _]]. rewrite <- E2 in ND.
    assert (GEN : forall t p lg, t_job t = t_job (f_t s) -> t_log t = t_log (f_t s) ->
      (forall e, pending (set_fpc s t f p lg) e -> t_fut t e = t_fut (f_t s) e /\ pending s e) ->
      match p with
      | FAt todo true => exists dn, f_wait s f = dn ++ todo /\ (forall e, In e dn -> clean (f_t s) e)
      | FDone true => forall e, In e (f_wait s f) -> clean (f_t s) e
      | _ => True
      end -> fs_inv (set_fpc s t f p lg)).
    { intros t p lg Ej El Hf Hp.
      assert (EC : forall e, clean (f_t s) e -> clean t e) by (intros e; unfold clean, this; rewrite El, Ej; auto).
      constructor; cbn [set_fpc f_t f_n f_wait f_after f_pc].
      - intros _ e P. destruct (Hf e P) as [Y Z]. specialize (J1 e Z). unfold keeps, this in *. rewrite El, Y. exact J1.
      - intros g Hg. specialize (J2 g Hg). destruct (Nat.eq_dec f g) as [<-|N].
        + rewrite upd_same. destruct p as [|todo [|]|[|]]; auto. destruct Hp as [dn [A B]]. exists dn. auto.
        + rewrite upd_other by auto. destruct (f_pc s g) as [|todo [|]|[|]]; auto. destruct J2 as [dn [A B]]. exists dn. auto. }
    assert (PEN : forall t p lg e, pending (set_fpc s t f p lg) e -> (In e (f_wait s f) -> (p = FNot \/ exists todo ok, p = FAt todo ok /\ In e todo) -> f_pc s f = FNot \/ exists todo ok, f_pc s f = FAt todo ok /\ In e todo) -> pending s e).
    { intros t p lg e P Q g Hg Ig. specialize (P g Hg Ig). cbn [set_fpc f_pc] in P. destruct (Nat.eq_dec f g) as [<-|N]; [rewrite upd_same in P; auto|rewrite upd_other in P by auto; exact P]. }
    specialize (J2 f Lf). specialize (I3 f Lf). destruct (f_pc s f) as [|[|e r] ok|ok] eqn:Pc; [| | |discriminate].
    - destruct (forallb _ _) eqn:Al; [|discriminate]. injection H as <-. apply GEN; auto; [|exists []; split; [reflexivity|]; intros e []].
      intros e P. split; [reflexivity|]. eapply PEN; [exact P|]. auto.
    - injection H as <-. apply GEN; auto; [|destruct ok; auto; destruct J2 as [dn [A B]]; rewrite app_nil_r in A; rewrite A; exact B].
      intros e P. split; [reflexivity|]. eapply PEN; [exact P|]. intros _ [X|[a [b [X _]]]]; discriminate.
    - assert (Ie : In e (f_wait s f)) by (specialize (I4 f Lf); rewrite Pc in I4; destruct I4 as [dn [A _]]; rewrite A; apply in_or_app; right; now left).
      assert (Nr : ~ In e r) by (specialize (I4 f Lf); rewrite Pc in I4; destruct I4 as [dn [A _]]; rewrite A in ND; apply NoDup_remove_2 in ND; intros X; apply ND, in_or_app; now right).
      assert (Pe : pending s e).
      { intros g Hg Ig. assert (X : g = f) by (rewrite E1 in Hg; rewrite E2 in Ig, Ie; eapply ONE; eauto). subst g. right. exists (e :: r), ok. split; [exact Pc|now left]. }
      pose proof (J1 e Pe) as Ke.
      assert (NEW : forall (x : bool), (x = true -> ok = true /\ clean (f_t s) e) -> match FAt r x with FAt todo true => exists dn, f_wait s f = dn ++ todo /\ (forall e, In e dn -> clean (f_t s) e) | FDone true => forall e, In e (f_wait s f) -> clean (f_t s) e | _ => True end).
      { intros [|] X; [|exact Logic.I]. destruct (X eq_refl) as [-> C]. destruct J2 as [dn [A B]]. exists (dn ++ [e]). split; [rewrite <- app_assoc; exact A|]. intros e' Y. apply in_app_iff in Y. destruct Y as [Y|[<-|[]]]; auto. }
      assert (PN : forall t x lg e', (forall e', e <> e' -> t_fut t e' = t_fut (f_t s) e') -> pending (set_fpc s t f x lg) e' -> (x = FDone false \/ exists b, x = FAt r b) -> t_fut t e' = t_fut (f_t s) e' /\ pending s e').
      { intros t x lg e' Q P X. split.
        - apply Q. intros <-. specialize (P f Lf Ie). cbn [set_fpc f_pc] in P. rewrite upd_same in P. destruct X as [->|[b ->]]; destruct P as [P|[a [c [P P']]]]; try discriminate. injection P as <- <-. contradiction.
        - eapply PEN; [exact P|]. intros _ Y. destruct X as [->|[b ->]]; destruct Y as [Y|[a [c [Y Y']]]]; try discriminate. injection Y as <- <-. right. exists (e :: r), ok. split; [reflexivity|now right]. }
      destruct (t_fut (f_t s) e) as [j|] eqn:Ef.
      + assert (TF : forall e', e <> e' -> t_fut (take_fut (f_t s) e) e' = t_fut (f_t s) e') by (intros e' N; cbn [take_fut t_fut]; rewrite upd_other by auto; reflexivity).
        destruct (t_job (f_t s) j) as [| | |x] eqn:Ej; try discriminate. destruct x; injection H as <-.
        * apply GEN; auto; [intros e' P; eapply PN; eauto|]. apply NEW. intros X. rewrite andb_true_r in X. split; [exact X|]. intros k L Lt. specialize (Ke k L Lt). rewrite Ef in Ke. injection Ke as <-. exact Ej.
        * apply GEN; auto; [intros e' P; eapply PN; eauto|]. cbn [outcome_eqb]. apply NEW. rewrite andb_false_r. discriminate.
        * apply GEN; auto. intros e' P. eapply PN; eauto.
      + injection H as <-. apply GEN; auto; [intros e' P; eapply PN; eauto|]. apply NEW. intros X. split; [exact X|]. intros k L Lt. specialize (Ke k L Lt). rewrite Ef in Ke. discriminate.
  Qed.
  Lemma fs_step s l s' : here s -> ff_inv s -> fs_inv s -> f_step s l = Some s' -> fs_inv s'.
  Proof.
    intros HH I J H. destruct l as [l|f]; [|eapply fs_fence; eauto]. pose proof HH as [E1 [E2 [E3 [E4 E5]]]]. pose proof I as [I1 I2 I2' I3 I4]. pose proof J as [J1 J2].
    assert (GR : forall t, tt_grow (f_t s) t -> (t_ph t = PGo -> forall e, t_ph (f_t s) = PGo /\ (keeps (f_t s) e -> keeps t e)) -> fs_inv (set_t s t)).
    { intros t G K. constructor; cbn [set_t f_t f_n f_wait f_after f_pc].
      - intros Pt e P. destruct (K Pt e) as [P0 K0]. apply K0, J1; auto.
      - intros f Hf. specialize (J2 f Hf). specialize (I3 f Hf). specialize (I4 f Hf). rewrite E1 in Hf. destruct (FA f Hf) as [_ [FW _]].
        assert (FX : f_pc s f <> FNot -> forall e, In e (f_wait s f) -> t_pc (f_t s) e = XFin true) by (intros P e Ie; apply I3; [exact P|]; rewrite E3; apply FW; rewrite <- E2; exact Ie).
        destruct (f_pc s f) as [|todo [|]|[|]]; auto; assert (FY := FX ltac:(discriminate)).
        + destruct J2 as [dn [A B]]. exists dn. split; [exact A|]. intros e Ie. eapply clean_grow; eauto. apply FY. rewrite A. apply in_or_app. now left.
        + intros e Ie. eapply clean_grow; eauto. }
    assert (OTHER : forall t, l <> TLRun -> t_step (f_t s) l = Some t -> fs_inv (set_t s t)).
    { intros t N E. destruct (tt_step _ _ _ I1 N E) as [It G]. apply GR; auto. intros Pt e. pose proof (step_phase _ _ _ E N Pt) as P0. split; [exact P0|]. intros K. exact (keeps_step _ _ _ _ I1 P0 N K E). }
    destruct l as [| |e b|j r|c]; cbn [f_step] in H.
    3-5: (destruct (t_step (f_t s) _) as [t|] eqn:E; [|discriminate]; injection H as <-; apply OTHER; [discriminate|reflexivity]).
    - destruct (t_step (f_t s) TLRun) as [t|] eqn:E; [|discriminate]. injection H as <-. destruct (tt_run _ _ I1 E) as [It [_ [Et [_ [Pt _]]]]]. constructor; cbn [f_t f_n f_wait f_after f_pc]; auto.
      intros _ e _ j L. rewrite Et in L. discriminate.
    - destruct (t_ph (f_t s)) as [| |todo ok] eqn:Ph.
      + destruct (t_step (f_t s) TLOwner) as [t|] eqn:E; [|discriminate]. injection H as <-. apply OTHER; [discriminate|reflexivity].
      + destruct (f_done s) eqn:Dn; [|discriminate]. injection H as <-. apply GR; [|discriminate].
        apply tt_grow_refl_log; auto; [split; [|split]; reflexivity|]. exists []. do 2 (split; [reflexivity|]). split; intros a; intros; intros [].
      + destruct (t_step (f_t s) TLOwner) as [t|] eqn:E; [|discriminate]. injection H as <-. apply OTHER; [discriminate|reflexivity].
  Qed.
  Lemma fs_new : fs_inv (f_new n st up nf wt af).
  Proof. constructor; cbn; try easy. Qed.
  Lemma fs_run ls : forall s s', here s -> ff_inv s -> fs_inv s -> f_run s ls = Some s' -> fs_inv s'.
  Proof.
    induction ls as [|l r IH]; intros s s' HH I J H; cbn [f_run] in H; [injection H as <-; auto|]. destruct (f_step s l) as [s1|] eqn:E; [|discriminate].
    assert (HH1 : here s1) by (eapply here_cfg; [exact HH|]; eapply f_step_cfg; [apply I|exact E]).
    exact (IH s1 s' HH1 (ff_step s l s1 HH I E) (fs_step s l s1 HH I J E) H).
  Qed.
End fenced.
