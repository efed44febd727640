(** Invariants of the timeout model. *)
From Verif Require Import TimeoutSpec.
Local Open Scope nat_scope.
Local Open Scope list_scope.

Definition about (e : nat) (x : tev) : bool := match x with TBody a _ | TUse a _ _ | TLate a _ | TAgain a | TSkip a | TCollect a _ _ => Nat.eqb a e | _ => false end.
Definition view (e : nat) (h : list tev) : list tev := filter (about e) (t_this h).
Lemma strategy_eqb_eq a b : strategy_eqb a b = true <-> a = b.
Proof. destruct a, b; split; easy. Qed.
Lemma strategy_eqb_neq a b : strategy_eqb a b = false <-> a <> b.
Proof. destruct a, b; split; easy. Qed.
(** The state of an element in a run while its future has not been looked at by reset *)
Definition W (g : strategy) (e : nat) (v : list tev) (p : tpc) (la : bool) (fu : option nat) : Prop :=
  match p with
  | XNot => v = [] /\ la = false /\ (g = HoldByPipeline -> fu = None)
  | XBody j => In (TAgain e) v \/ (v = [TBody e j] /\ g = Sync /\ la = false)
  | XWait j => In (TAgain e) v \/ (v = [TBody e j] /\ g <> Sync /\ fu = Some j /\ la = false)
  | XHold | XFin true => In (TAgain e) v \/ (exists j, v = [TUse e j ROk; TBody e j] /\ la = false /\ (g = HoldByPipeline -> fu = None)) \/ (exists j, v = [TLate e j; TBody e j] /\ (g = HoldByPipeline \/ g = NoHold) /\ la = true /\ fu = Some j)
  | XFin false => In (TAgain e) v \/ (exists j r, v = [TUse e j r; TBody e j] /\ r <> ROk /\ la = false /\ (g = HoldByPipeline -> fu = None)) \/ (exists j, v = [TLate e j; TBody e j] /\ g = AsError /\ la = false)
  end.
(** The same once reset is done with it *)
Definition Wd (g : strategy) (e : nat) (v : list tev) (p : tpc) (la : bool) (fu : option nat) : Prop :=
  la = false /\ (g = HoldByPipeline -> fu = None) /\
  match p with
  | XNot => v = []
  | XBody j | XWait j => False
  | XHold => False
  | XFin true => In (TAgain e) v \/ (exists j, v = [TUse e j ROk; TBody e j]) \/ (exists j, v = [TLate e j; TBody e j] /\ g = NoHold) \/ (exists j r, v = [TCollect e j r; TLate e j; TBody e j] /\ g = HoldByPipeline /\ r <> RThrow)
  | XFin false => In (TAgain e) v \/ (exists j r, v = [TUse e j r; TBody e j] /\ r <> ROk) \/ (exists j, v = [TLate e j; TBody e j] /\ g = AsError)
  end.
Definition result_ok (n : nat) (st : nat -> strategy) (x : ending) (b : list tev) : Prop := no_throw b -> no_again (t_this b) ->
  (x = EndThrow <-> exists e j, e < n /\ st e = HoldByPipeline /\ In (TLate e j) (t_this b) /\ In (TRet j RThrow) b) /\
  (x = EndOk <-> (forall e j r, e < n -> In (TUse e j r) (t_this b) -> r = ROk) /\ (forall e j, e < n -> st e = AsError -> ~ In (TLate e j) (t_this b)) /\ (forall e j, e < n -> st e = HoldByPipeline -> In (TLate e j) (t_this b) -> In (TRet j ROk) b)) /\
  (x <> EndThrow -> forall e j, e < n -> st e = HoldByPipeline -> In (TLate e j) (t_this b) -> exists r, In (TRet j r) b) /\
  (x = EndOk -> forall e, e < n -> (exists j, filter (is_body e) (t_this b) = [TBody e j]) /\ ((exists j, In (TLate e j) (t_this b)) \/ exists j, In (TUse e j ROk) (t_this b))) /\
  (x <> EndThrow -> forall e j, e < n -> In (TBody e j) (t_this b) -> (exists r, In (TRet j r) b) \/ (In (TLate e j) (t_this b) /\ (st e = AsError \/ st e = NoHold))).
Definition ends_ok (n : nat) (st : nat -> strategy) (h : list tev) : Prop := forall a x b, h = a ++ TEnd x :: b -> result_ok n st x b.
Definition child_ok (st : nat -> strategy) (up : nat -> list nat) (h : list tev) : Prop := forall a c b, h = a ++ TChild c :: b -> forall g, In g (up c) -> late_now st g b = false.
Record tinv (n : nat) (st : nat -> strategy) (up : nat -> list nat) (s : tst) : Prop :=
  { ti_n : t_n s = n; ti_st : t_strat s = st; ti_up : t_up s = up;
    ti_fresh : forall j, t_next s <= j -> t_job s j = JNone;
    ti_ret : forall j r, t_job s j = JDone r <-> In (TRet j r) (t_log s);
    ti_use : forall e j r, In (TUse e j r) (t_log s) \/ In (TCollect e j r) (t_log s) -> In (TRet j r) (t_log s);
    ti_late : forall e, t_late s e = late_now st e (t_log s);
    ti_child : child_ok st up (t_log s);
    ti_skip : no_throw (t_log s) -> forall e, ~ In (TSkip e) (t_log s);
    ti_wait : forall e j, t_pc s e = XWait j -> st e <> Sync;
    ti_sync : forall e, st e = Sync -> t_late s e = false;
    ti_out : t_ph s = POut -> no_throw (t_log s) -> forall e, e < n -> t_late s e = false /\ (st e = HoldByPipeline -> t_fut s e = None);
    ti_go : t_ph s = PGo -> no_throw (t_log s) -> (forall e j r, ~ In (TCollect e j r) (t_this (t_log s))) /\ forall e, e < n -> W (st e) e (view e (t_log s)) (t_pc s e) (t_late s e) (t_fut s e);
    ti_rs : forall todo ok, t_ph s = PReset todo ok -> no_throw (t_log s) -> NoDup todo /\ (forall e, In e todo -> e < n /\ st e <> Sync) /\
      (forall e, e < n -> t_idle (t_pc s e) = true) /\ ((forall e, e < n -> t_fin (t_pc s e) = true) \/ exists e, e < n /\ t_pc s e = XFin false) /\
      (ok = true <-> (forall e, e < n -> t_pc s e <> XFin false) /\ (forall e j r, e < n -> In (TCollect e j r) (t_this (t_log s)) -> r = ROk)) /\
      (forall e, e < n -> (In e todo \/ st e = Sync -> W (st e) e (view e (t_log s)) (t_pc s e) (t_late s e) (t_fut s e)) /\ (~ In e todo -> st e <> Sync -> Wd (st e) e (view e (t_log s)) (t_pc s e) (t_late s e) (t_fut s e)));
    ti_end : ends_ok n st (t_log s) }.
Lemma tinv_new n st up : tinv n st up (t_new n st up).
Proof.
  constructor; cbn; try easy.
  - intros e j r [[]|[]].
  - intros [|x a] c b H; discriminate.
  - intros [|x a] c b H; discriminate.
Qed.
(** Adding events *)
Definition plain (x : tev) : bool := match x with TBegin | TEnd _ => false | _ => true end.
Lemma this_app lg h : forallb plain lg = true -> t_this (lg ++ h) = lg ++ t_this h.
Proof. induction lg as [|x r IH]; [easy|]. cbn [forallb app t_this]. intros H. apply andb_prop in H. destruct H as [H1 H2]. rewrite (IH H2). now destruct x. Qed.
Lemma ends_app n st lg h : (forall x, ~ In (TEnd x) lg) -> ends_ok n st h -> ends_ok n st (lg ++ h).
Proof.
  intros P E. induction lg as [|y r IH]; [easy|]. intros [|z a] x b H; cbn in H; injection H as H0 H; [subst y; exfalso; apply (P x); now left|]. eapply IH; [|exact H]. intros c C. apply (P c). now right.
Qed.
Lemma child_app st up lg h : (forall c, ~ In (TChild c) lg) -> child_ok st up h -> child_ok st up (lg ++ h).
Proof.
  intros P E. induction lg as [|y r IH]; [easy|]. intros [|z a] x b H; cbn in H; injection H as H0 H; [subst y; exfalso; apply (P x); now left|]. eapply IH; [|exact H]. intros c C. apply (P c). now right.
Qed.
Lemma throw_app lg h : no_throw (lg ++ h) -> no_throw h.
Proof. intros H X. apply H. apply in_or_app. now right. Qed.
Lemma view_app e lg h : forallb plain lg = true -> view e (lg ++ h) = filter (about e) lg ++ view e h.
Proof. intros P. unfold view. rewrite this_app by easy. apply filter_app. Qed.

Definition elem_ev (s : tst) (e : nat) (x : tev) : Prop := match x with TBody a _ | TAgain a | TSkip a | TLate a _ => a = e | TUse a j r => a = e /\ t_job s j = JDone r | _ => False end.
Lemma elem_gen n st up s e late' fut' job' own' next' p lg : tinv n st up s -> e < n -> t_ph s = PGo -> (forall x, In x lg -> elem_ev s e x) ->
  (forall e', e' <> e -> late' e' = t_late s e' /\ fut' e' = t_fut s e') -> late' e = late_now st e (lg ++ t_log s) -> (st e = Sync -> late' e = false) -> (forall j, p = XWait j -> st e <> Sync) ->
  (forall j, next' <= j -> job' j = JNone) -> (forall j r, job' j = JDone r <-> t_job s j = JDone r) ->
  (no_throw (t_log s) -> W (st e) e (view e (t_log s)) (t_pc s e) (t_late s e) (t_fut s e) -> ~ In (TSkip e) lg /\ W (st e) e (lg ++ view e (t_log s)) p (late' e) (fut' e)) ->
  tinv n st up (mkT (t_n s) (t_strat s) (t_up s) late' fut' job' own' next' (t_ph s) (upd (t_pc s) e p) (lg ++ t_log s)).
Proof.
  intros [In_ Ist Iup Ifr Iret Iuse Ila Ich Isk Iwa Isy Iout Igo Irs Iend] He PG LG OT LA SY WA FR JD WW.
  assert (PL : forallb plain lg = true) by (apply forallb_forall; intros x X; apply LG in X; destruct x; easy).
  assert (VO : forall e', e' <> e -> filter (about e') lg = []).
  { intros e' NE. clear LA WW PL. induction lg as [|x r IH]; [easy|]. cbn [filter]. rewrite IH by (intros y Y; apply LG; now right). specialize (LG x (or_introl eq_refl)).
    destruct x; cbn in LG |- *; try easy; try (match type of LG with _ /\ _ => destruct LG as [LG _] end); subst; destruct (Nat.eqb_spec e e'); congruence. }
  assert (VE : filter (about e) lg = lg).
  { clear LA WW PL VO. induction lg as [|x r IH]; [easy|]. cbn [filter]. rewrite IH by (intros y Y; apply LG; now right). specialize (LG x (or_introl eq_refl)).
    destruct x; cbn in LG |- *; try easy; try (match type of LG with _ /\ _ => destruct LG as [LG _] end); subst; now rewrite Nat.eqb_refl. }
  assert (LO : forall e', e' <> e -> late_now st e' (lg ++ t_log s) = late_now st e' (t_log s)).
  { intros e' NE. clear LA WW PL VO VE. induction lg as [|x r IH]; [easy|]. cbn [app late_now]. rewrite IH by (intros y Y; apply LG; now right). specialize (LG x (or_introl eq_refl)).
    destruct x; cbn in LG |- *; try easy. subst. destruct (Nat.eqb_spec e e'); [congruence|easy]. }
  assert (NI : forall x, match x with TCollect _ _ _ | TRet _ _ | TEnd _ | TChild _ | TReset _ => True | _ => False end -> ~ In x lg) by (intros x X H; apply LG in H; destruct x; easy).
  constructor; cbn [t_n t_strat t_up t_late t_fut t_job t_own t_next t_ph t_pc t_log]; try easy.
  - intros j r. rewrite JD, Iret. split; [intros H; apply in_or_app; now right|]. intros H. apply in_app_or in H. destruct H as [H|H]; [now apply NI in H|easy].
  - intros e' j r [H|H]; apply in_app_or in H; destruct H as [H|H]; apply in_or_app; right.
    + apply LG in H. apply Iret. apply H.
    + apply Iuse with e'. now left.
    + now apply NI in H.
    + apply Iuse with e'. now right.
  - intros e'. destruct (Nat.eq_dec e' e) as [->|NE]; [easy|]. rewrite LO by easy. rewrite (proj1 (OT e' NE)). apply Ila.
  - apply child_app; [|easy]. intros c. now apply NI.
  - intros T e' H. apply throw_app in T. apply in_app_or in H. destruct H as [H|H]; [|now apply (Isk T e')]. pose proof (LG _ H) as Q. cbn in Q. subst e'. apply (proj1 (WW T (proj2 (Igo PG T) e He)) H).
  - intros e' j. unfold upd. destruct (Nat.eqb_spec e' e) as [->|NE]; [apply WA|apply Iwa].
  - intros e' S. destruct (Nat.eq_dec e' e) as [->|NE]; [auto|]. rewrite (proj1 (OT e' NE)). auto.
  - rewrite PG. easy.
  - intros _ T. apply throw_app in T. destruct (Igo PG T) as [G1 G2]. split.
    + intros e' j r H. rewrite this_app in H by easy. apply in_app_or in H. destruct H as [H|H]; [now apply NI in H|now apply G1 in H].
    + intros e' He'. rewrite view_app by easy. unfold upd. destruct (Nat.eqb_spec e' e) as [->|NE]; [rewrite VE; now apply WW, G2|]. rewrite VO by easy. cbn [app]. destruct (OT e' NE) as [-> ->]. auto.
  - rewrite PG. easy.
  - apply ends_app; [|easy]. intros x. now apply NI.
Qed.
Lemma upd_at {A} (f : nat -> A) e v : upd f e v e = v.
Proof. unfold upd. now rewrite Nat.eqb_refl. Qed.
Lemma upd_ne {A} (f : nat -> A) e v x : x <> e -> upd f e v x = f x.
Proof. unfold upd. intros H. destruct (Nat.eqb_spec x e); easy. Qed.
Lemma tinv_body n st up s e lg : tinv n st up s -> e < n -> t_ph s = PGo -> (lg = [] /\ (no_throw (t_log s) -> view e (t_log s) = []) \/ lg = [TAgain e]) -> late_now st e (t_log s) = false \/ lg = [TAgain e] -> tinv n st up (call_body s e lg).
Proof.
  intros I He PG LG LA. pose proof (ti_late _ _ _ _ I e) as LN. pose proof (ti_sync _ _ _ _ I e) as SY. pose proof (ti_st _ _ _ _ I) as ST. pose proof (ti_fresh _ _ _ _ I) as FR. unfold call_body. cbv zeta.
  change (TBody e (t_next s) :: lg ++ t_log s) with ((TBody e (t_next s) :: lg) ++ t_log s). apply elem_gen; rewrite ?ST; try easy.
  - intros x [<-|X]; [easy|]. destruct LG as [[-> _]| ->]; [easy|]. destruct X as [<-|[]]. easy.
  - intros e' NE. split; [easy|]. destruct (strategy_eqb (st e) Sync); [easy|]. now rewrite upd_ne.
  - rewrite LN. destruct LG as [[-> _]| ->]; easy.
  - intros j. destruct (strategy_eqb (st e) Sync) eqn:S; [easy|]. intros _. now apply strategy_eqb_neq.
  - intros j J. rewrite upd_ne by lia. apply FR. lia.
  - intros j r. unfold upd. destruct (Nat.eqb_spec j (t_next s)) as [->|]; [|easy]. rewrite (FR (t_next s)) by lia. destruct (strategy_eqb (st e) Sync); split; easy.
  - intros T WO. split; [destruct LG as [[-> _]| ->]; cbn; intuition discriminate|].
    destruct LG as [[-> V]| ->].
    + rewrite (V T). cbn [app]. assert (L0 : t_late s e = false) by (destruct LA as [LA|LA]; [congruence|discriminate]). destruct (strategy_eqb (st e) Sync) eqn:S; cbn [W]; right.
      * apply strategy_eqb_eq in S. easy.
      * apply strategy_eqb_neq in S. rewrite upd_at. easy.
    + destruct (strategy_eqb (st e) Sync); cbn; tauto.
Qed.
Lemma tinv_elem n st up s e b s' : top_level n up -> tinv n st up s -> t_step s (TLElem e b) = Some s' -> tinv n st up s'.
Proof.
  intros TL I E. cbn [t_step] in E. destruct (Nat.ltb_spec e (t_n s)) as [He|]; [|discriminate]. rewrite (ti_n _ _ _ _ I) in He. destruct (in_go (t_ph s)) eqn:PG0; [|discriminate]. assert (PG : t_ph s = PGo) by (destruct (t_ph s); easy). cbn [andb] in E.
  pose proof (ti_late _ _ _ _ I e) as LN. pose proof (ti_sync _ _ _ _ I e) as SY. pose proof (ti_st _ _ _ _ I) as ST. pose proof (ti_fresh _ _ _ _ I) as FR. pose proof (ti_go _ _ _ _ I PG) as GO. pose proof (ti_wait _ _ _ _ I e) as WA.
  destruct (t_pc s e) as [|j|j| |ok] eqn:P.
  - unfold is_timeout in E. rewrite (ti_up _ _ _ _ I), (TL e He) in E. cbn [existsb] in E. rewrite orb_false_r in E. destruct (t_late s e) eqn:L; injection E as <-.
    + apply elem_gen; try easy.
      * intros x [<-|[]]. easy.
      * rewrite L. easy.
      * intros H. apply SY in H. congruence.
      * intros T WO. rewrite P in WO. cbn in WO. destruct WO as (_ & WO & _). congruence.
    + apply tinv_body; auto. left; split; [easy|]. intros T. destruct (GO T) as [_ G]. specialize (G e He). rewrite P in G. apply G.
  - destruct (t_job s j) eqn:J; try discriminate. injection E as <-. apply elem_gen; try easy.
    + intros x [<-|[]]. cbn. easy.
    + intros j'. destruct r; easy.
    + intros T WO. split; [cbn; intuition discriminate|]. rewrite P in WO. cbn in WO. destruct WO as [WO|(V & S & L)].
      * destruct r; cbn; tauto.
      * rewrite V, S. destruct r; cbn; right; left; eexists; try (split; [reflexivity|easy]); eexists; (split; [reflexivity|easy]).
  - assert (NS : no_throw (t_log s) -> In (TAgain e) (view e (t_log s)) \/ (view e (t_log s) = [TBody e j] /\ st e <> Sync /\ t_fut s e = Some j /\ t_late s e = false)) by (intros T; destruct (GO T) as [_ G]; specialize (G e He); now rewrite P in G).
    assert (DN : forall r, t_job s j = JDone r -> tinv n st up (mkT (t_n s) (t_strat s) (t_up s) (t_late s) (upd (t_fut s) e None) (t_job s) (t_own s) (t_next s) (t_ph s) (upd (t_pc s) e (after r)) (TUse e j r :: t_log s))).
    { intros r J. change (TUse e j r :: t_log s) with ([TUse e j r] ++ t_log s). apply elem_gen; try easy.
      - intros x [<-|[]]. cbn. easy.
      - intros e' NE. now rewrite upd_ne.
      - intros j'. destruct r; easy.
      - intros T _. split; [cbn; intuition discriminate|]. rewrite upd_at. destruct (NS T) as [V|(V & S & F & L)].
        + destruct r; cbn; tauto.
        + rewrite V. destruct r; cbn; right; left; eexists; try (split; [reflexivity|easy]); eexists; (split; [reflexivity|easy]). }
    assert (LT : (if b then if strategy_eqb (t_strat s e) AsError then Some (set_tpc s e (XFin false) [TLate e j])
                     else Some (mkT (t_n s) (t_strat s) (t_up s) (upd (t_late s) e true) (t_fut s) (t_job s) (t_own s) (t_next s) (t_ph s) (upd (t_pc s) e XHold) (TLate e j :: t_log s)) else None) = Some s' -> tinv n st up s').
    { clear E. intros E. destruct b; [|discriminate]. rewrite ST in E. destruct (strategy_eqb (st e) AsError) eqn:A; injection E as <-.
      - apply elem_gen; try easy.
        + intros x [<-|[]]. cbn. easy.
        + cbn. rewrite A, Nat.eqb_refl. cbn. easy.
        + intros T _. split; [cbn; intuition discriminate|]. apply strategy_eqb_eq in A. destruct (NS T) as [V|(V & S & F & L)]; [cbn; tauto|]. rewrite V. cbn. right; right. exists j. easy.
      - change (TLate e j :: t_log s) with ([TLate e j] ++ t_log s). rewrite <- ST. apply elem_gen; rewrite ?ST; try easy.
        + intros x [<-|[]]. cbn. easy.
        + intros e' NE. now rewrite upd_ne.
        + rewrite upd_at. cbn. now rewrite A, Nat.eqb_refl.
        + intros H. exfalso. exact (WA j eq_refl H).
        + intros T _. split; [cbn; intuition discriminate|]. apply strategy_eqb_neq in A. rewrite upd_at. destruct (NS T) as [V|(V & S & F & L)]; [cbn; tauto|]. rewrite V. cbn. right; right. exists j. split; [easy|]. split; [|easy]. destruct (st e); easy || tauto. }
    destruct (t_job s j) eqn:J; try exact (LT E). injection E as <-. now apply DN.
  - destruct b; injection E as <-; [apply tinv_body; auto|]. apply elem_gen; try easy. intros T WO. split; [easy|]. rewrite P in WO. exact WO.
  - discriminate.
Qed.

(** Bodies that end and elements inside groups *)
Lemma tinv_neutral n st up s job' lg : tinv n st up s -> (forall x, In x lg -> match x with TRet _ _ | TChild _ | TChildSkip _ => True | _ => False end) -> (forall j, t_next s <= j -> job' j = JNone) ->
  (forall j r, job' j = JDone r <-> In (TRet j r) (lg ++ t_log s)) -> child_ok st up (lg ++ t_log s) ->
  tinv n st up (mkT (t_n s) (t_strat s) (t_up s) (t_late s) (t_fut s) job' (t_own s) (t_next s) (t_ph s) (t_pc s) (lg ++ t_log s)).
Proof.
  intros [In_ Ist Iup Ifr Iret Iuse Ila Ich Isk Iwa Isy Iout Igo Irs Iend] LG FR JD CH.
  assert (PL : forallb plain lg = true) by (apply forallb_forall; intros x X; apply LG in X; destruct x; easy).
  assert (VE : forall e, filter (about e) lg = []).
  { intros e. clear PL JD CH. induction lg as [|x r IH]; [easy|]. cbn [filter]. rewrite IH by (intros y Y; apply LG; now right). specialize (LG x (or_introl eq_refl)). destruct x; easy. }
  assert (LO : forall e, late_now st e (lg ++ t_log s) = late_now st e (t_log s)).
  { intros e. clear PL JD CH VE. induction lg as [|x r IH]; [easy|]. cbn [app late_now]. rewrite IH by (intros y Y; apply LG; now right). specialize (LG x (or_introl eq_refl)). destruct x; easy. }
  assert (NI : forall x, match x with TRet _ _ | TChild _ | TChildSkip _ => False | _ => True end -> In x (lg ++ t_log s) -> In x (t_log s)) by (intros x X H; apply in_app_or in H; destruct H as [H|H]; [apply LG in H; destruct x; easy|easy]).
  assert (NT : forall x, match x with TRet _ _ | TChild _ | TChildSkip _ => False | _ => True end -> In x (t_this (lg ++ t_log s)) <-> In x (t_this (t_log s))).
  { intros x X. rewrite this_app by easy. split; [|intros H; apply in_or_app; now right]. intros H. apply in_app_or in H. destruct H as [H|H]; [apply LG in H; destruct x; easy|easy]. }
  assert (VW : forall e, view e (lg ++ t_log s) = view e (t_log s)) by (intros e; rewrite view_app by easy; now rewrite VE).
  constructor; cbn [t_n t_strat t_up t_late t_fut t_job t_own t_next t_ph t_pc t_log]; try easy.
  - intros e j r H. apply in_or_app. right. apply Iuse with e. destruct H as [H|H]; apply NI in H; tauto.
  - intros e. now rewrite LO.
  - intros T e H. apply NI in H; [|easy]. apply throw_app in T. now apply (Isk T e).
  - intros P T. apply throw_app in T. auto.
  - intros P T. apply throw_app in T. destruct (Igo P T) as [G1 G2]. split; [intros e j r H; apply NT in H; [now apply G1 in H|easy]|]. intros e He. rewrite VW. auto.
  - intros todo ok P T. apply throw_app in T. destruct (Irs todo ok P T) as (R1 & R2 & R3 & R4 & R5 & R6). do 4 (split; [easy|]). split.
    + rewrite R5. split; intros [H1 H2]; (split; [easy|]); intros e j r He H; apply (H2 e j r He); now apply NT.
    + intros e He. rewrite VW. auto.
  - apply ends_app; [|easy]. intros x H. now apply LG in H.
Qed.
Lemma tinv_job n st up s j r s' : tinv n st up s -> t_step s (TLJob j r) = Some s' -> tinv n st up s'.
Proof.
  intros I E. cbn [t_step] in E. pose proof (ti_fresh _ _ _ _ I) as FR. pose proof (ti_ret _ _ _ _ I) as RT. destruct (t_job s j) eqn:J; try discriminate; injection E as <-.
  - change (t_log s) with ([] ++ t_log s). apply tinv_neutral; try easy.
    + intros j' L. rewrite upd_ne; [auto|]. intros ->. rewrite FR in J by easy. discriminate.
    + intros j' r'. cbn [app]. rewrite <- RT. unfold upd. destruct (Nat.eqb_spec j' j) as [->|]; [rewrite J; easy|easy].
    + apply I.
  - change (TRet j r :: t_log s) with ([TRet j r] ++ t_log s). apply tinv_neutral; try easy.
    + intros x [<-|[]]. easy.
    + intros j' L. rewrite upd_ne; [auto|]. intros ->. rewrite FR in J by easy. discriminate.
    + intros j' r'. cbn [app]. unfold upd. destruct (Nat.eqb_spec j' j) as [->|N].
      * split; [intros H; injection H as ->; now left|]. intros [H|H]; [now injection H as ->|]. apply RT in H. congruence.
      * rewrite RT. split; [now right|]. intros [H|H]; [congruence|easy].
    + apply child_app; [|apply I]. intros c [H|[]]. discriminate.
Qed.
Lemma tinv_child n st up s c s' : tinv n st up s -> t_step s (TLChild c) = Some s' -> tinv n st up s'.
Proof.
  intros I E. cbn [t_step] in E. destruct (Nat.leb_spec (t_n s) c) as [L|]; [|discriminate]. destruct (is_timeout s c) eqn:TO; injection E as <-; unfold set_ph; apply tinv_neutral; try (now apply I); try (intros x [<-|[]]; easy).
  - intros j r. rewrite (ti_ret _ _ _ _ I). cbn. split; [now right|]. intros [H|H]; [discriminate|easy].
  - apply child_app; [|apply I]. intros x [H|[]]. discriminate.
  - intros j r. rewrite (ti_ret _ _ _ _ I). cbn. split; [now right|]. intros [H|H]; [discriminate|easy].
  - intros [|z a] x b H; cbn in H; injection H as H0 H; [subst|now apply (ti_child _ _ _ _ I a x b)]. intros g G. rewrite <- (ti_late _ _ _ _ I). unfold is_timeout in TO. apply orb_false_elim in TO. destruct TO as [_ TO]. rewrite (ti_up _ _ _ _ I) in TO.
    destruct (t_late s g) eqn:LG; [|easy]. exfalso. assert (X : existsb (t_late s) (up x) = true) by (apply existsb_exists; now exists g). congruence.
Qed.
Lemma tinv_lrun n st up s s' : tinv n st up s -> t_step s TLRun = Some s' -> tinv n st up s'.
Proof.
  intros [In_ Ist Iup Ifr Iret Iuse Ila Ich Isk Iwa Isy Iout Igo Irs Iend] E. cbn [t_step] in E. destruct (t_ph s) eqn:P; try discriminate. injection E as <-.
  assert (TH : no_throw (TBegin :: t_log s) -> no_throw (t_log s)) by apply (throw_app [TBegin]).
  constructor; cbn [t_n t_strat t_up t_late t_fut t_job t_own t_next t_ph t_pc t_log]; try easy.
  - intros j r. rewrite Iret. cbn. split; [now right|]. intros [H|H]; [discriminate|easy].
  - intros e j r [[H|H]|[H|H]]; try discriminate; right; apply Iuse with e; tauto.
  - apply (child_app st up [TBegin]); [|easy]. intros c [H|[]]. discriminate.
  - intros T e [H|H]; [discriminate|]. now apply (Isk (TH T) e).
  - intros _ T. split; [easy|]. intros e He. destruct (Iout eq_refl (TH T) e He) as [O1 O2]. cbn. easy.
  - apply (ends_app n st [TBegin]); [|easy]. intros x [H|[]]. discriminate.
Qed.
Lemma filter_sub {A} (f g : A -> bool) l : (forall x, f x = true -> g x = true) -> filter f (filter g l) = filter f l.
Proof. intros H. induction l as [|x l IH]; [easy|]. cbn. destruct (g x) eqn:G; cbn; rewrite IH; [easy|]. destruct (f x) eqn:F; [apply H in F; congruence|easy]. Qed.
Lemma in_view e x h : about e x = true -> In x (view e h) <-> In x (t_this h).
Proof. intros A. unfold view. rewrite filter_In. tauto. Qed.
Lemma filter_nodup {A} (f : A -> bool) l : NoDup l -> NoDup (filter f l).
Proof. induction 1 as [|x l H N IH]; cbn; [constructor|]. destruct (f x); [|easy]. constructor; [|easy]. rewrite filter_In. tauto. Qed.
Lemma this_in h x : In x (t_this h) -> In x h.
Proof. induction h as [|y r IH]; [easy|]. cbn. destruct y; cbn; tauto. Qed.
Lemma tinv_enter n st up s : tinv n st up s -> t_ph s = PGo -> t_done s = true -> tinv n st up (set_ph s (PReset (filter (fun e => negb (strategy_eqb (t_strat s e) Sync)) (seq 0 (t_n s))) (t_ok s)) []).
Proof.
  intros [In_ Ist Iup Ifr Iret Iuse Ila Ich Isk Iwa Isy Iout Igo Irs Iend] P D. unfold set_ph. cbn [app].
  constructor; cbn [t_n t_strat t_up t_late t_fut t_job t_own t_next t_ph t_pc t_log]; try easy. intros todo ok X T. injection X as <- <-. rewrite In_, Ist. destruct (Igo P T) as [G1 G2].
  assert (IT : forall e, In e (filter (fun e => negb (strategy_eqb (st e) Sync)) (seq 0 n)) <-> e < n /\ st e <> Sync).
  { intros e. rewrite filter_In, in_seq. destruct (strategy_eqb (st e) Sync) eqn:S; cbn; [apply strategy_eqb_eq in S|apply strategy_eqb_neq in S]; intuition (try lia; try easy). }
  unfold t_done in D. rewrite In_ in D. assert (IE : forall e, e < n -> In e (seq 0 n)) by (intros e He; apply in_seq; lia).
  split; [apply filter_nodup, seq_NoDup|]. split; [intros e; apply IT|].
  assert (DI : (forall e, e < n -> t_idle (t_pc s e) = true) /\ ((forall e, e < n -> t_fin (t_pc s e) = true) \/ exists e, e < n /\ t_pc s e = XFin false)).
  { apply orb_prop in D. destruct D as [D|D].
    - rewrite forallb_forall in D. split; [intros e He; specialize (D e (IE e He)); destruct (t_pc s e); easy|left]. auto.
    - apply andb_prop in D. destruct D as [D1 D2]. rewrite forallb_forall in D2. split; [auto|right]. apply existsb_exists in D1. destruct D1 as (e & E1 & E2). exists e. apply in_seq in E1. split; [lia|]. destruct (t_pc s e) as [| | | |[]]; easy. }
  split; [apply DI|]. split; [apply DI|]. split.
  - unfold t_ok. rewrite In_, forallb_forall. split.
    + intros H. split; [|intros e j r _ X; now apply G1 in X]. intros e He X. specialize (H e (IE e He)). now rewrite X in H.
    + intros [H _] e He. apply in_seq in He. specialize (H e ltac:(lia)). destruct (t_pc s e) as [| | | |[]]; easy.
  - intros e He. split; [intros _; auto|]. intros N S. exfalso. apply N, IT. easy.
Qed.
Lemma tinv_end n st up s ok : tinv n st up s -> t_ph s = PReset [] ok -> tinv n st up (set_ph s POut [TEnd (if ok then EndOk else EndErr)]).
Proof.
  intros [In_ Ist Iup Ifr Iret Iuse Ila Ich Isk Iwa Isy Iout Igo Irs Iend] P. unfold set_ph. cbn [app]. set (x := TEnd (if ok then EndOk else EndErr)).
  assert (TH : no_throw (x :: t_log s) -> no_throw (t_log s)) by apply (throw_app [x]).
  constructor; cbn [t_n t_strat t_up t_late t_fut t_job t_own t_next t_ph t_pc t_log]; try easy.
  - intros j r. rewrite Iret. cbn. split; [now right|]. intros [H|H]; [discriminate|easy].
  - intros e j r [[H|H]|[H|H]]; try discriminate; right; apply Iuse with e; tauto.
  - apply (child_app st up [x]); [|easy]. intros c [H|[]]. discriminate.
  - intros T e [H|H]; [discriminate|]. now apply (Isk (TH T) e).
  - intros _ T e He. destruct (Irs [] ok P (TH T)) as (_ & _ & _ & _ & _ & R6). destruct (R6 e He) as [R7 R8]. destruct (strategy_eqb (st e) Sync) eqn:S.
    + apply strategy_eqb_eq in S. split; [now apply Isy|]. congruence.
    + apply strategy_eqb_neq in S. destruct (R8 (fun H => H) S) as (Q1 & Q2 & _). easy.
  - intros [|z a] y b H; cbn in H; injection H as H0 H; [|now apply (Iend a y b)]. subst b. intros T A.
    destruct (Irs [] ok P T) as (_ & _ & R3 & R4 & R5 & R6).
    assert (NA : forall e, ~ In (TAgain e) (view e (t_log s))) by (intros e X; apply in_view in X; [now apply (A e)|cbn; apply Nat.eqb_refl]).
    assert (UQ : forall j r r', In (TRet j r) (t_log s) -> In (TRet j r') (t_log s) -> r = r') by (intros j r r' H1 H2; apply Iret in H1; apply Iret in H2; congruence).
    (* what the log says of each element *)
    assert (V : forall e, e < n -> (t_pc s e = XNot /\ view e (t_log s) = []) \/ (exists j r, view e (t_log s) = [TUse e j r; TBody e j] /\ t_pc s e = XFin (outcome_eqb r ROk)) \/
      (exists j, view e (t_log s) = [TLate e j; TBody e j] /\ ((st e = NoHold /\ t_pc s e = XFin true) \/ (st e = AsError /\ t_pc s e = XFin false))) \/
      (exists j r, view e (t_log s) = [TCollect e j r; TLate e j; TBody e j] /\ st e = HoldByPipeline /\ r <> RThrow /\ t_pc s e = XFin true)).
    { intros e He. destruct (R6 e He) as [R7 R8]. specialize (R3 e He). specialize (NA e). destruct (strategy_eqb (st e) Sync) eqn:S.
      - apply strategy_eqb_eq in S. specialize (R7 (or_intror S)). destruct (t_pc s e) as [| | | |[]] eqn:PC; try discriminate; cbn in R7.
        + left. easy.
        + destruct R7 as [R7|[(j & Q & _)|(j & Q & [Q2|Q2] & _)]]; try easy; try congruence. right; left. exists j, ROk. easy.
        + destruct R7 as [R7|[(j & r & Q & Q2 & _)|(j & Q & Q2 & _)]]; try easy; try congruence. right; left. exists j, r. split; [easy|]. destruct r; easy.
      - apply strategy_eqb_neq in S. destruct (R8 (fun H => H) S) as (Q1 & Q2 & Q3). destruct (t_pc s e) as [| | | |[]] eqn:PC; try easy.
        + left. easy.
        + destruct Q3 as [Q3|[(j & Q)|[(j & Q & Q4)|(j & r & Q & Q4 & Q5)]]]; try easy.
          * right; left. exists j, ROk. easy.
          * right; right; left. exists j. tauto.
          * right; right; right. exists j, r. easy.
        + destruct Q3 as [Q3|[(j & r & Q & Q4)|(j & Q & Q4)]]; try easy.
          * right; left. exists j, r. split; [easy|]. destruct r; easy.
          * right; right; left. exists j. tauto. }
    assert (VL : forall e j, e < n -> In (TLate e j) (t_this (t_log s)) -> (view e (t_log s) = [TLate e j; TBody e j] /\ ((st e = NoHold /\ t_pc s e = XFin true) \/ (st e = AsError /\ t_pc s e = XFin false))) \/ (exists r, view e (t_log s) = [TCollect e j r; TLate e j; TBody e j] /\ st e = HoldByPipeline /\ r <> RThrow)).
    { intros e j He H. apply (in_view e) in H; [|cbn; apply Nat.eqb_refl]. destruct (V e He) as [[_ Q]|[(j' & r & Q & _)|[(j' & Q & Q2)|(j' & r & Q & Q2 & Q3 & _)]]]; rewrite Q in H; cbn in H.
      - easy.
      - exfalso. intuition discriminate.
      - destruct H as [H|[H|[]]]; [injection H as ->|discriminate]. left. easy.
      - destruct H as [H|[H|[H|[]]]]; [discriminate|injection H as ->|discriminate]. right. now exists r. }
    assert (CR : forall e j r, e < n -> view e (t_log s) = [TCollect e j r; TLate e j; TBody e j] -> In (TRet j r) (t_log s) /\ In (TCollect e j r) (t_this (t_log s))).
    { intros e j r He Q. assert (X : In (TCollect e j r) (t_this (t_log s))) by (apply (in_view e); [cbn; apply Nat.eqb_refl|rewrite Q; now left]). split; [|easy]. apply Iuse with e. right. now apply this_in. }
    subst y. clear x TH. split; [|split; [|split; [|split]]].
    + split; [destruct ok; easy|]. intros (e & j & He & S & H1 & H2). exfalso. destruct (VL e j He H1) as [[_ [[X _]|[X _]]]|(r & Q & _ & Q2)]; try congruence. destruct (CR e j r He Q) as [C1 _]. apply Q2. apply (UQ j); easy.
    + assert (OK : (if ok then EndOk else EndErr) = EndOk <-> ok = true) by (destruct ok; split; easy). rewrite OK, R5. split.
      * intros [F1 F2]. split; [|split].
        -- intros e j r He H. apply (in_view e) in H; [|cbn; apply Nat.eqb_refl]. specialize (F1 e He). destruct (V e He) as [[_ Q]|[(j' & r' & Q & Q2)|[(j' & Q & Q2)|(j' & r' & Q & Q2 & Q3 & _)]]]; rewrite Q in H; cbn in H; try (intuition discriminate).
           destruct H as [H|[H|[]]]; [injection H as -> ->|discriminate]. destruct r; [easy| |]; now rewrite Q2 in F1.
        -- intros e j He S H. specialize (F1 e He). destruct (VL e j He H) as [[_ [[X _]|[_ X]]]|(r & _ & X & _)]; congruence.
        -- intros e j He S H. destruct (VL e j He H) as [[_ [[X _]|[X _]]]|(r & Q & _ & _)]; try congruence. destruct (CR e j r He Q) as [C1 C2]. now rewrite <- (F2 e j r He C2).
      * intros (F1 & F2 & F3). split.
        -- intros e He PC. destruct (V e He) as [[Q _]|[(j & r & Q & Q2)|[(j & Q & [[_ Q2]|[Q2 _]])|(j & r & Q & _ & _ & Q2)]]]; try congruence.
           ++ assert (X : In (TUse e j r) (t_this (t_log s))) by (apply (in_view e); [cbn; apply Nat.eqb_refl|rewrite Q; now left]). rewrite (F1 e j r He X) in Q2. cbn in Q2. congruence.
           ++ apply (F2 e j He Q2). apply (in_view e); [cbn; apply Nat.eqb_refl|rewrite Q; now left].
        -- intros e j r He H. assert (H' := H). apply (in_view e) in H; [|cbn; apply Nat.eqb_refl]. destruct (V e He) as [[_ Q]|[(j' & r' & Q & Q2)|[(j' & Q & Q2)|(j' & r' & Q & Q2 & Q3 & _)]]]; rewrite Q in H; cbn in H; try (intuition discriminate).
           destruct H as [H|[H|[H|[]]]]; try discriminate. injection H as -> ->. destruct (CR e j r He Q) as [C1 _]. apply (UQ j); [easy|]. apply (F3 e j He Q2). apply (in_view e); [cbn; apply Nat.eqb_refl|rewrite Q; cbn; tauto].
    + intros _ e j He S H. destruct (VL e j He H) as [[_ [[X _]|[X _]]]|(r & Q & _ & _)]; try congruence. exists r. now apply (CR e j r He Q).
    + intros OK e He. assert (ok = true) by (destruct ok; easy). subst ok. apply proj1 in R5. destruct (R5 eq_refl) as [F1 F2]. assert (FI : t_fin (t_pc s e) = true) by (destruct R4 as [R4|(e' & E1 & E2)]; [auto|now apply F1 in E1]).
      rewrite <- (filter_sub (is_body e) (about e)) by (intros []; easy). change (filter (about e) (t_this (t_log s))) with (view e (t_log s)). specialize (F1 e He).
      assert (MB : forall y, about e y = true -> In y (view e (t_log s)) -> In y (t_this (t_log s))) by (intros y Y; apply (proj1 (in_view e y _ Y))).
      destruct (V e He) as [[Q _]|[(j & r & Q & Q2)|[(j & Q & Q2)|(j & r & Q & _)]]].
      * now rewrite Q in FI.
      * rewrite Q. cbn. rewrite Nat.eqb_refl. split; [now exists j|]. right. exists j. apply MB; [cbn; apply Nat.eqb_refl|]. rewrite Q. left. destruct r; [easy| |]; now rewrite Q2 in F1.
      * rewrite Q. cbn. rewrite Nat.eqb_refl. split; [now exists j|]. left. exists j. apply MB; [cbn; apply Nat.eqb_refl|]. rewrite Q. now left.
      * rewrite Q. cbn. rewrite Nat.eqb_refl. split; [now exists j|]. left. exists j. apply MB; [cbn; apply Nat.eqb_refl|]. rewrite Q. cbn. tauto.
    + intros _ e j He H. apply (in_view e) in H; [|cbn; apply Nat.eqb_refl]. assert (MB : forall y, about e y = true -> In y (view e (t_log s)) -> In y (t_this (t_log s))) by (intros y Y; apply (proj1 (in_view e y _ Y))).
      destruct (V e He) as [[_ Q]|[(j' & r & Q & Q2)|[(j' & Q & Q2)|(j' & r & Q & _)]]].
      * now rewrite Q in H.
      * rewrite Q in H. destruct H as [H|[H|[]]]; [discriminate|]. injection H as ->. left. exists r. apply Iuse with e. left. apply this_in, MB; [cbn; apply Nat.eqb_refl|]. rewrite Q. now left.
      * rewrite Q in H. destruct H as [H|[H|[]]]; [discriminate|]. injection H as ->. right. split; [apply MB; [cbn; apply Nat.eqb_refl|]; rewrite Q; now left|]. tauto.
      * assert (H' := H). rewrite Q in H. destruct H as [H|[H|[H|[]]]]; try discriminate. injection H as ->. left. exists r. now apply (CR e j r He Q).
Qed.
(** reset is done with an element: [got] is what it collected. *)
Lemma tinv_back n st up s e todo ok fut' ok' lg : tinv n st up s -> t_ph s = PReset (e :: todo) ok -> (forall e', e' <> e -> fut' e' = t_fut s e') -> (st e = HoldByPipeline -> fut' e = None) ->
  (lg = [] /\ ok' = ok /\ (st e = HoldByPipeline -> t_fut s e = None) \/ exists j r, lg = [TCollect e j r] /\ t_fut s e = Some j /\ t_job s j = JDone r /\ r <> RThrow /\ ok' = (ok && outcome_eqb r ROk)%bool /\ st e = HoldByPipeline) ->
  tinv n st up (mkT (t_n s) (t_strat s) (t_up s) (if is_timeout s e then upd (t_late s) e false else t_late s) fut' (t_job s) (t_own s) (t_next s) (PReset todo ok') (t_pc s) (TReset e :: lg ++ t_log s)).
Proof.
  intros [In_ Ist Iup Ifr Iret Iuse Ila Ich Isk Iwa Isy Iout Igo Irs Iend] P FO FE LG.
  change (TReset e :: lg ++ t_log s) with ((TReset e :: lg) ++ t_log s). set (lg1 := TReset e :: lg).
  assert (LE : forall x, In x lg1 -> x = TReset e \/ exists j r, x = TCollect e j r /\ t_job s j = JDone r) by (intros x [<-|X]; [now left|]; destruct LG as [(-> & _)|(j & r & -> & F & J & _)]; [easy|]; destruct X as [<-|[]]; right; now exists j, r).
  assert (PL : forallb plain lg1 = true) by (apply forallb_forall; intros x X; destruct (LE x X) as [->|(j & r & -> & _)]; easy).
  assert (LT : forall e', (if is_timeout s e then upd (t_late s) e false else t_late s) e' = if Nat.eqb e' e then false else t_late s e').
  { intros e'. unfold is_timeout, upd. destruct (t_late s e) eqn:L; cbn [orb]; [easy|]. destruct (existsb _ _); destruct (Nat.eqb_spec e' e) as [->|]; easy. }
  assert (LN : forall e', late_now st e' (lg1 ++ t_log s) = if Nat.eqb e' e then false else late_now st e' (t_log s)).
  { intros e'. unfold lg1. cbn [app late_now]. rewrite (Nat.eqb_sym e e'). destruct (Nat.eqb e' e); [easy|]. destruct LG as [(-> & _)|(j & r & -> & _)]; easy. }
  assert (VO : forall e', e' <> e -> view e' (lg1 ++ t_log s) = view e' (t_log s)).
  { intros e' NE. rewrite view_app by easy. unfold lg1. cbn [filter about]. destruct LG as [(-> & _)|(j & r & -> & _)]; [easy|]. cbn. destruct (Nat.eqb_spec e e'); [congruence|easy]. }
  assert (NI : forall x, (match x with TReset _ | TCollect _ _ _ => False | _ => True end) -> In x (lg1 ++ t_log s) -> In x (t_log s)) by (intros x X H; apply in_app_or in H; destruct H as [H|H]; [destruct (LE x H) as [->|(j & r & -> & _)]; easy|easy]).
  constructor; cbn [t_n t_strat t_up t_late t_fut t_job t_own t_next t_ph t_pc t_log]; try easy.
  - intros j r. rewrite Iret. split; [intros H; apply in_or_app; now right|]. now apply NI.
  - intros e' j r H. apply in_or_app. right. destruct H as [H|H]; [apply NI in H; [apply Iuse with e'; tauto|easy]|]. apply in_app_or in H. destruct H as [H|H]; [|apply Iuse with e'; tauto]. apply LE in H. destruct H as [H|(j' & r' & H & J)]; [discriminate|]. injection H as -> -> ->. now apply Iret.
  - intros e'. rewrite LT, LN. destruct (Nat.eqb e' e); [easy|apply Ila].
  - apply child_app; [|easy]. intros c H. apply LE in H. destruct H as [H|(j & r & H & _)]; discriminate.
  - intros T e' H. apply throw_app in T. apply NI in H; [|easy]. now apply (Isk T e').
  - intros e' S. rewrite LT. destruct (Nat.eqb e' e); [easy|auto].
  - intros td k X T. injection X as <- <-. apply throw_app in T. destruct (Irs _ _ P T) as (R1 & R2 & R3 & R4 & R5 & R6). inversion R1 as [|? ? R7 R8]; subst. destruct (R2 e (or_introl eq_refl)) as [He S].
    split; [easy|]. split; [intros e' H; apply R2; now right|]. split; [easy|]. split; [easy|]. split.
    + assert (CI : forall e' j r, In (TCollect e' j r) (t_this (lg1 ++ t_log s)) <-> In (TCollect e' j r) lg \/ In (TCollect e' j r) (t_this (t_log s))).
      { intros e' j r. rewrite this_app by easy. unfold lg1. rewrite in_app_iff. cbn. split; [intros [[H|H]|H]; [discriminate|tauto..]|tauto]. }
      destruct LG as [(-> & -> & _)|(j & r & -> & F & J & NT & -> & HS)].
      * rewrite R5. split; intros [H1 H2]; (split; [easy|]); intros e' j r He' H; apply (H2 e' j r He'); [apply CI in H; destruct H as [[]|H]; exact H|apply CI; now right].
      * rewrite andb_true_iff, R5. split.
        -- intros [[H1 H2] H3]. split; [easy|]. intros e' j' r' He' H. apply CI in H. destruct H as [[H|[]]|H]; [|now apply (H2 e' j' r')]. injection H as <- <- <-. destruct r; easy.
        -- intros [H1 H2]. split; [split; [easy|]|]; [intros e' j' r' He' H; apply (H2 e' j' r' He'), CI; now right|]. rewrite (H2 e j r He); [easy|]. apply CI. left. now left.
    + intros e' He'. rewrite LT. destruct (Nat.eqb_spec e' e) as [->|NE].
      * split; [intros [H|H]; easy|]. intros _ _. destruct (R6 e He) as [W0 _]. specialize (W0 (or_introl (or_introl eq_refl))). specialize (R3 e He).
        rewrite view_app by easy. unfold lg1. cbn [filter about]. split; [easy|]. split; [easy|].
        destruct LG as [(-> & -> & F)|(j & r & -> & F & J & NT & -> & HS)].
        -- cbn [filter app]. destruct (t_pc s e) as [| | | |[]]; try easy; cbn in W0; [apply W0| |].
           ++ destruct W0 as [W0|[(j & Q & _)|(j & Q & [Q2|Q2] & _ & Q3)]]; [now left|right; left; now exists j| |right; right; left; now exists j]. specialize (F Q2). congruence.
           ++ destruct W0 as [W0|[(j & r & Q & Q2 & _)|(j & Q & Q2 & _)]]; [now left|right; left; now exists j, r|right; right; now exists j].
        -- cbn [filter about app]. rewrite Nat.eqb_refl. cbn [app]. destruct (t_pc s e) as [| | | |[]]; try easy; cbn in W0.
           ++ destruct W0 as (_ & _ & W0). rewrite (W0 HS) in F. discriminate.
           ++ destruct W0 as [W0|[(j' & Q & _ & Q2)|(j' & Q & _ & _ & Q3)]]; [left; now right|rewrite (Q2 HS) in F; discriminate|]. right; right; right. rewrite F in Q3. injection Q3 as <-. exists j, r. rewrite Q. easy.
           ++ destruct W0 as [W0|[(j' & r' & Q & _ & _ & Q2)|(j' & Q & Q2 & _)]]; [left; now right|rewrite (Q2 HS) in F; discriminate|congruence].
      * rewrite VO, FO by easy. destruct (R6 e' He') as [W1 W2]. split; [intros [H|H]; apply W1; [left; now right|now right]|]. intros N S'. apply W2; [|easy]. intros [H|H]; [congruence|easy].
  - apply ends_app; [|easy]. intros x H. apply LE in H. destruct H as [H|(j & r & H & _)]; discriminate.
Qed.
Lemma tinv_throw n st up s e todo ok j : tinv n st up s -> t_ph s = PReset (e :: todo) ok -> st e = HoldByPipeline -> t_fut s e = Some j -> t_job s j = JDone RThrow ->
  tinv n st up (mkT (t_n s) (t_strat s) (t_up s) (t_late s) (upd (t_fut s) e None) (t_job s) (t_own s) (t_next s) POut (t_pc s) (TEnd EndThrow :: TCollect e j RThrow :: t_log s)).
Proof.
  intros [In_ Ist Iup Ifr Iret Iuse Ila Ich Isk Iwa Isy Iout Igo Irs Iend] P HS F J.
  assert (NT : ~ no_throw (TEnd EndThrow :: TCollect e j RThrow :: t_log s)) by (intros H; apply H; now left).
  constructor; cbn [t_n t_strat t_up t_late t_fut t_job t_own t_next t_ph t_pc t_log]; try easy.
  - intros j' r. rewrite Iret. cbn. split; [tauto|]. intros [H|[H|H]]; easy.
  - intros e' j' r [[H|[H|H]]|[H|[H|H]]]; try discriminate; right; right; [apply Iuse with e'; tauto| |apply Iuse with e'; tauto]. injection H as <- <- <-. now apply Iret.
  - apply (child_app st up [TEnd EndThrow; TCollect e j RThrow]); [|easy]. intros c [H|[H|[]]]; discriminate.
  - intros [|z a] x b H; cbn in H; injection H as H0 H; [|apply (ends_app n st [TCollect e j RThrow]) in Iend; [now apply (Iend a x b)|intros y [Y|[]]; discriminate]]. subst x b. intros T A.
    assert (T0 : no_throw (t_log s)) by apply (throw_app [_] _ T). destruct (Irs _ _ P T0) as (R1 & R2 & R3 & R4 & R5 & R6). destruct (R2 e (or_introl eq_refl)) as [He S].
    assert (L : In (TLate e j) (t_this (t_log s))).
    { assert (NA : ~ In (TAgain e) (view e (t_log s))) by (intros X; apply in_view in X; [apply (A e); cbn; now right|cbn; apply Nat.eqb_refl]).
      destruct (R6 e He) as [W0 _]. specialize (W0 (or_introl (or_introl eq_refl))). specialize (R3 e He). apply (in_view e); [cbn; apply Nat.eqb_refl|]. destruct (t_pc s e) as [| | | |[]]; try easy; cbn in W0.
      - destruct W0 as (_ & _ & W0). rewrite (W0 HS) in F. discriminate.
      - destruct W0 as [W0|[(j' & Q & _ & Q2)|(j' & Q & _ & _ & Q3)]]; [easy|rewrite (Q2 HS) in F; discriminate|]. rewrite F in Q3. injection Q3 as <-. rewrite Q. now left.
      - destruct W0 as [W0|[(j' & r' & Q & _ & _ & Q2)|(j' & Q & Q2 & _)]]; [easy|rewrite (Q2 HS) in F; discriminate|congruence]. }
    assert (RT : In (TRet j RThrow) (t_log s)) by now apply Iret.
    split; [split; [|easy]|split; [split; [easy|]|split; [easy|split; easy]]].
    + intros _. exists e, j. cbn. tauto.
    + intros (_ & _ & F3). specialize (F3 e j He HS). cbn in F3. destruct (F3 (or_intror L)) as [X|X]; [discriminate|]. apply Iret in X. congruence.
Qed.
Lemma tinv_step n st up s l s' : top_level n up -> tinv n st up s -> t_step s l = Some s' -> tinv n st up s'.
Proof.
  intros TL I E. destruct l; [eapply tinv_lrun; eauto| |eapply tinv_elem; eauto|eapply tinv_job; eauto|eapply tinv_child; eauto]. cbn [t_step] in E. pose proof (ti_st _ _ _ _ I) as ST. destruct (t_ph s) as [| |[|e todo] ok] eqn:P; try discriminate.
  - destruct (t_done s) eqn:D; [|discriminate]. injection E as <-. now apply tinv_enter.
  - injection E as <-. now apply tinv_end.
  - destruct (strategy_eqb (t_strat s e) HoldByPipeline) eqn:S.
    + apply strategy_eqb_eq in S. rewrite ST in S. destruct (t_fut s e) as [j|] eqn:F.
      * destruct (t_job s j) as [| | |[]] eqn:J; try discriminate; injection E as <-; [| |eapply tinv_throw; eauto].
        -- change (t_log s) with ([] ++ t_log s) at 1. apply (tinv_back n st up s e todo ok _ _ [TCollect e j ROk]); try easy; [intros e' NE; now rewrite upd_ne|now rewrite upd_at|]. right. exists j, ROk. easy.
        -- apply (tinv_back n st up s e todo ok _ _ [TCollect e j RErr]); try easy; [intros e' NE; now rewrite upd_ne|now rewrite upd_at|]. right. exists j, RErr. easy.
      * injection E as <-. apply (tinv_back n st up s e todo ok _ _ []); try easy. now left.
    + apply strategy_eqb_neq in S. rewrite ST in S. injection E as <-. apply (tinv_back n st up s e todo ok _ _ []); try easy. now left.
Qed.
Lemma tinv_run n st up : top_level n up -> forall ls s s', tinv n st up s -> t_run s ls = Some s' -> tinv n st up s'.
Proof.
  intros TL. induction ls as [|l r IH]; intros s s' I E; cbn [t_run] in E; [now injection E as <-|]. destruct (t_step s l) as [s1|] eqn:E1; [|discriminate]. apply (IH s1); [|easy]. eapply tinv_step; eauto.
Qed.

(** An element with AS_ERROR that was late has failed, with or without repetitions and exceptions. *)
Record tinv2 (s : tst) : Prop :=
  { t2_late : t_ph s <> POut -> forall e j, t_strat s e = AsError -> In (TLate e j) (t_this (t_log s)) -> e < t_n s /\ t_pc s e = XFin false;
    t2_ok : forall todo, t_ph s = PReset todo true -> forall e, e < t_n s -> t_pc s e <> XFin false;
    t2_end : forall a b, t_log s = a ++ TEnd EndOk :: b -> forall e j, t_strat s e = AsError -> ~ In (TLate e j) (t_this b) }.
Lemma late_this lg h e j : (forall x, In x lg -> x <> TBegin) -> In (TLate e j) (t_this (lg ++ h)) -> In (TLate e j) lg \/ In (TLate e j) (t_this h).
Proof.
  induction lg as [|y r IH]; intros P H; [now right|]. assert (Q : y <> TBegin) by (apply P; now left). assert (R : forall x, In x r -> x <> TBegin) by (intros x X; apply P; now right). cbn [app t_this] in H. destruct y; try easy; destruct H as [H|H]; try (left; now left); destruct (IH R H); try tauto; left; now right.
Qed.
Lemma tinv2_gen s late' fut' job' own' next' ph pc lg : tinv2 s -> (t_ph s <> POut \/ ph = POut) -> (forall x, In x lg -> x <> TBegin /\ (forall y, x <> TEnd y) /\ (forall e j, x = TLate e j -> t_strat s e = AsError -> e < t_n s /\ pc e = XFin false)) ->
  (forall e, t_pc s e = XFin false -> pc e = XFin false) -> (forall todo, ph = PReset todo true -> forall e, e < t_n s -> pc e <> XFin false) -> tinv2 (mkT (t_n s) (t_strat s) (t_up s) late' fut' job' own' next' ph pc (lg ++ t_log s)).
Proof.
  intros [A B C] PH LG PC OK. constructor; cbn [t_n t_strat t_ph t_pc t_log].
  - intros P e j S H. apply late_this in H; [|intros x X; now apply LG]. destruct H as [H|H]; [destruct (LG _ H) as (_ & _ & L); now apply (L e j)|]. destruct PH as [PH|PH]; [|easy]. destruct (A PH e j S H). split; [easy|auto].
  - exact OK.
  - intros a b H. revert a H. induction lg as [|y r IH]; intros a H; [eapply C; eauto|]. destruct a as [|z a]; cbn in H; injection H as H0 H.
    + subst y. destruct (LG _ (or_introl eq_refl)) as (_ & L & _). now destruct (L EndOk).
    + eapply IH; eauto. intros x X. apply LG. now right.
Qed.
Lemma tinv2_step s l s' : tinv2 s -> t_step s l = Some s' -> tinv2 s'.
Proof.
  intros I E. pose proof I as [A B C]. destruct l; cbn [t_step] in E.
  - destruct (t_ph s) eqn:P; try discriminate. injection E as <-. constructor; cbn; try easy. intros [|z a] b H; [discriminate|]. cbn in H. injection H as _ H. eauto.
  - destruct (t_ph s) as [| |[|e todo] ok] eqn:P; try discriminate.
    + destruct (t_done s) eqn:D; [|discriminate]. injection E as <-. apply tinv2_gen; try easy; [rewrite P; now left|]. intros td X e He F. injection X as _ X. unfold t_ok in X. rewrite forallb_forall in X. specialize (X e ltac:(apply in_seq; lia)). now rewrite F in X.
    + injection E as <-. constructor; cbn; try easy. intros [|z a] b H; cbn in H; injection H as H0 H; [|eauto]. subst b. intros e j S L. destruct ok; [|discriminate]. destruct (A ltac:(easy) e j S L) as [L1 L2]. now apply (B [] eq_refl e L1).
    + assert (G : forall la fu ok' lg, (lg = [] \/ exists j r, lg = [TCollect e j r]) -> (ok' = true -> ok = true) -> tinv2 (mkT (t_n s) (t_strat s) (t_up s) la fu (t_job s) (t_own s) (t_next s) (PReset todo ok') (t_pc s) (TReset e :: lg ++ t_log s))).
      { intros la fu ok' lg LG K. apply (tinv2_gen s la fu (t_job s) (t_own s) (t_next s) (PReset todo ok') (t_pc s) (TReset e :: lg)); try easy; [rewrite P; now left| |].
        - intros x [<-|X]; [easy|]. destruct LG as [->|(j & r & ->)]; [easy|]. destruct X as [<-|[]]. easy.
        - intros td X. injection X as <- X. apply (B (e :: todo)). rewrite (K X). easy. }
      cbv zeta in E. destruct (strategy_eqb (t_strat s e) HoldByPipeline); [destruct (t_fut s e) as [j|]; [destruct (t_job s j) as [| | |[]]; try discriminate|]|]; injection E as <-.
      * apply (G _ _ _ [TCollect e j ROk]); [right; now exists j, ROk|]. intros H. now apply andb_prop in H.
      * apply (G _ _ _ [TCollect e j RErr]); [right; now exists j, RErr|]. intros H. now apply andb_prop in H.
      * constructor; cbn; try easy. intros [|z [|z' a]] b H; cbn in H; [discriminate|discriminate|]. injection H as _ _ H. eauto.
      * apply (G _ _ _ []); [now left|easy].
      * apply (G _ _ _ []); [now left|easy].
  - destruct (Nat.ltb_spec e (t_n s)) as [He|]; [|discriminate]. destruct (in_go (t_ph s)) eqn:PG0; [|discriminate]. assert (PG : t_ph s = PGo) by (destruct (t_ph s); easy). cbn [andb] in E.
    assert (G : forall la fu jo ow ne p lg, t_pc s e <> XFin false -> (forall x, In x lg -> x <> TBegin /\ (forall y, x <> TEnd y) /\ (forall e' j, x = TLate e' j -> e' = e /\ (t_strat s e = AsError -> p = XFin false))) -> tinv2 (mkT (t_n s) (t_strat s) (t_up s) la fu jo ow ne (t_ph s) (upd (t_pc s) e p) (lg ++ t_log s))).
    { intros la fu jo ow ne p lg N LG. apply tinv2_gen; try easy; [rewrite PG; now left| | |rewrite PG; easy].
      - intros x X. destruct (LG x X) as (L1 & L2 & L3). split; [easy|]. split; [easy|]. intros e' j -> S. destruct (L3 e' j eq_refl) as [-> L4]. split; [easy|]. rewrite upd_at. auto.
      - intros e' F. unfold upd. destruct (Nat.eqb_spec e' e) as [->|]; [easy|easy]. }
    assert (ZB : forall lg, (forall x, In x lg -> x = TAgain e) -> t_pc s e <> XFin false -> tinv2 (call_body s e lg)).
    { intros lg LG N. unfold call_body. cbv zeta. change (TBody e (t_next s) :: lg ++ t_log s) with ((TBody e (t_next s) :: lg) ++ t_log s). apply G; [easy|]. intros x [<-|X]; [easy|]. rewrite (LG x X). easy. }
    destruct (t_pc s e) as [|j|j| |ok] eqn:P.
    + destruct (is_timeout s e); injection E as <-; [apply G; [easy|]; intros x [<-|[]]; easy|]. apply ZB; easy.
    + destruct (t_job s j); try discriminate. injection E as <-. apply G; [easy|]; intros x [<-|[]]; easy.
    + assert (LT : (if b then if strategy_eqb (t_strat s e) AsError then Some (set_tpc s e (XFin false) [TLate e j])
                     else Some (mkT (t_n s) (t_strat s) (t_up s) (upd (t_late s) e true) (t_fut s) (t_job s) (t_own s) (t_next s) (t_ph s) (upd (t_pc s) e XHold) (TLate e j :: t_log s)) else None) = Some s' -> tinv2 s').
      { clear E. intros E. destruct b; [|discriminate]. destruct (strategy_eqb (t_strat s e) AsError) eqn:S; injection E as <-.
        - apply G; [easy|]. intros x [<-|[]]. split; [easy|]. split; [easy|]. intros e' j' X. injection X as <- <-. easy.
        - apply strategy_eqb_neq in S. apply (G _ _ _ _ _ _ [TLate e j]); [easy|]. intros x [<-|[]]. split; [easy|]. split; [easy|]. intros e' j' X. injection X as <- <-. easy. }
      destruct (t_job s j); try exact (LT E). injection E as <-. apply (G _ _ _ _ _ _ [TUse e j r]); [easy|]. intros x [<-|[]]; easy.
    + destruct b; injection E as <-; [|apply G; easy]. apply ZB; [|easy]. intros x [<-|[]]. easy.
    + discriminate.
  - assert (G : forall jo lg, (forall x, In x lg -> exists a b, x = TRet a b) -> tinv2 (mkT (t_n s) (t_strat s) (t_up s) (t_late s) (t_fut s) jo (t_own s) (t_next s) (t_ph s) (t_pc s) (lg ++ t_log s))).
    { intros jo lg LG. destruct (t_ph s) eqn:P; (apply tinv2_gen; try easy; [rewrite ?P; (now left) || (now right)|intros x X; destruct (LG x X) as (a & b' & ->); easy]). }
    destruct (t_job s j); try discriminate; injection E as <-; [apply (G _ []); easy|apply (G _ [TRet j r])]. intros x [<-|[]]. now exists j, r.
  - destruct (Nat.leb (t_n s) c); [|discriminate].
    assert (G : forall x, (x = TChild c \/ x = TChildSkip c) -> tinv2 (set_ph s (t_ph s) [x])).
    { intros x X. unfold set_ph. destruct (t_ph s) eqn:P; (apply tinv2_gen; try easy; [rewrite ?P; (now left) || (now right)|intros y [<-|[]]; destruct X as [-> | ->]; easy]). }
    destruct (is_timeout s c); injection E as <-; apply G; tauto.
Qed.
Lemma tinv2_run : forall ls s s', tinv2 s -> t_run s ls = Some s' -> tinv2 s' /\ t_strat s' = t_strat s.
Proof.
  induction ls as [|l r IH]; intros s s' I E; cbn [t_run] in E; [now injection E as <-|]. destruct (t_step s l) as [s1|] eqn:E1; [|discriminate]. destruct (IH s1 s' (tinv2_step _ _ _ I E1) E) as [I2 ->]. split; [easy|]. clear IH E I I2.
  destruct l; cbn [t_step] in E1; repeat match goal with H : context [match ?c with _ => _ end] |- _ => destruct c end; try discriminate; injection E1 as <-; easy.
Qed.
