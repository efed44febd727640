From Verif Require Import MsgConModel MsgConSpec MsgSpec MsgProofs MsgProps.
From Coq Require Import Lia.
Local Open Scope nat_scope.
Local Open Scope list_scope.

(** * Traces *)
Inductive closed (t : nat) : list mev -> Prop :=
| cl_nil : closed t []
| cl_ret o a r : closed t r -> closed t (r ++ [ECall t o; EAcc t o a; ERet t o a]).
Lemma closed_turn t r : closed t r -> forall l, in_turn t l -> in_turn t (r ++ l).
Proof.
  induction 1 as [|o a r H IH]; intros l L; [exact L|]. rewrite <- app_assoc. apply IH. cbn. now constructor.
Qed.
(** What the trace of [t] is like when [t] is at [p]. *)
Definition at_pc (t : nat) (p : mpc) (l : list mev) : Prop :=
  match p with
  | Idle => closed t l
  | Want o | Look o | Change o | Use o _ => exists r, closed t r /\ l = r ++ [ECall t o]
  | Out o a => exists r, closed t r /\ l = r ++ [ECall t o; EAcc t o a]
  end.
Lemma at_pc_turn t p l : at_pc t p l -> in_turn t l.
Proof.
  destruct p; cbn; intro H; [rewrite <- (app_nil_r l); apply (closed_turn t l H); constructor|..]; destruct H as (r & C & ->); apply (closed_turn t r C); constructor.
Qed.
Lemma accs_snoc tr e : accs (tr ++ [e]) = accs tr ++ acc_of e.
Proof. unfold accs. rewrite flat_map_app. cbn. now rewrite app_nil_r. Qed.
Lemma past_snoc tr e : past (tr ++ [e]) = rev (map (fun x => snd (fst x)) (acc_of e)) ++ past tr.
Proof. unfold past, c_ops. now rewrite accs_snoc, map_app, rev_app_distr. Qed.
Lemma past_acc tr t o a : past (tr ++ [EAcc t o a]) = o :: past tr.
Proof. now rewrite past_snoc. Qed.

Section V.
Variable vt : nat -> nat.
Variable N : nat.
Notation tstep := (tstep vt N).
Notation trun := (trun vt N).
(** * Invariant *)
Definition holds (p : mpc) : bool := match p with Look o | Change o | Out o _ => locks o | _ => false end.
Record tinv (s : tst) : Prop := mk_tinv
  { ti_ms : m_after vt (past (ts_tr s)) = Some (ts_ms s);
    ti_ans : forall a t o v b, accs (ts_tr s) = a ++ (t, o, v) :: b -> m_answer vt (rev (map (fun x => snd (fst x)) a)) o = Some v;
    ti_pc : forall t, at_pc t (ts_pc s t) (filter (mine t) (ts_tr s));
    ti_lock : forall t, ts_lock s = Some t <-> holds (ts_pc s t) = true;
    ti_use : forall t o n, ts_pc s t = Use o n -> locks o = false;
    ti_chg : forall t o, ts_pc s t = Change o -> locks o = true;
    ti_all : forall o, (exists t, ts_pc s t <> Idle /\ (ts_pc s t = Want o \/ ts_pc s t = Look o \/ ts_pc s t = Change o \/ exists n, ts_pc s t = Use o n)) \/ In o (past (ts_tr s)) -> allowed o = true;
    ti_N : forall t, ts_pc s t <> Idle -> t < N }.
Lemma tinv_new : tinv ts_new.
Proof.
  constructor; cbn; try easy.
  - intros a t o v b E. now destruct a.
  - intro t. constructor.
  - intros o [(t & H & _)|[]]. now destruct H.
Qed.
Lemma pc_upd_at s t p e tr' : (forall u, at_pc u (ts_pc s u) (filter (mine u) (ts_tr s))) -> tr' = ts_tr s ++ e -> (forall x, In x e -> mine t x = true) -> (forall u x, u <> t -> In x e -> mine u x = false) ->
  at_pc t p (filter (mine t) (ts_tr s) ++ e) -> forall u, at_pc u (upd (ts_pc s) t p u) (filter (mine u) tr').
Proof.
  intros I -> M O A u. rewrite filter_app. destruct (Nat.eq_dec u t) as [->|NE].
  - rewrite upd_same. replace (filter (mine t) e) with e; [exact A|]. symmetry. clear - M. induction e as [|x e IH]; [reflexivity|]. cbn. rewrite M by now left. f_equal. apply IH. intros; apply M; now right.
  - rewrite upd_other by exact NE. replace (filter (mine u) e) with (@nil mev); [rewrite app_nil_r; apply I|].
    symmetry. assert (X : forall x, In x e -> mine u x = false) by (intros; now apply O). clear - X. induction e as [|x e IH]; [reflexivity|]. cbn. rewrite X by now left. apply IH. intros; apply X; now right.
Qed.
Definition op_of (p : mpc) : option mop := match p with Idle => None | Want o | Look o | Change o | Use o _ | Out o _ => Some o end.

(** The shapes of a step. *)
Inductive move (l : tlabel) (s : tst) (t : nat) : tst -> Prop :=
| mv_call o : l = LCall t o -> ts_pc s t = Idle -> t < N -> allowed o = true -> move l s t (mkTS (ts_ms s) (ts_gen s) (ts_lock s) (upd (ts_pc s) t (Want o)) (ts_tr s ++ [ECall t o]))
| mv_lock o : ts_pc s t = Want o -> locks o = true -> ts_lock s = None -> writer N s t = false ->
    move l s t (mkTS (ts_ms s) (ts_gen s) (Some t) (upd (ts_pc s) t (Look o)) (ts_tr s))
| mv_look o : ts_pc s t = Want o -> locks o = false -> writer N s t = false -> move l s t (set_pc s t (Look o))
| mv_change o g : ts_pc s t = Look o -> changes (ts_ms s) o = true -> busy N s t = false -> (forall k, (forall k', o <> MRemove k') -> g k = ts_gen s k) ->
    move l s t (mkTS (ts_ms s) g (ts_lock s) (upd (ts_pc s) t (Change o)) (ts_tr s))
| mv_use o : ts_pc s t = Look o -> locks o = false -> move l s t (set_pc s t (Use o (ts_gen s (topic_of o))))
| mv_eff o m a : (ts_pc s t = Look o /\ changes (ts_ms s) o = false \/ ts_pc s t = Change o \/ exists n, ts_pc s t = Use o n) -> m_step vt (ts_ms s) o = Some (m, a) -> move l s t (done_with s t o m a)
| mv_ret o a : ts_pc s t = Out o a -> move l s t (mkTS (ts_ms s) (ts_gen s) (if locks o then None else ts_lock s) (upd (ts_pc s) t Idle) (ts_tr s ++ [ERet t o a])).
Definition who (l : tlabel) : nat := match l with LCall t _ | LGo t | LTime t => t end.
Lemma step_move s l s' : tstep s l = TRun s' -> move l s (who l) s'.
Proof.
  destruct l as [t o|t|t]; cbn [MsgConModel.tstep who]; intro E.
  - destruct ((t <? N) && allowed o) eqn:G; [|discriminate]. apply andb_prop in G. destruct G as [G A]. apply Nat.ltb_lt in G. destruct (ts_pc s t) eqn:P; try discriminate. injection E as <-. now constructor.
  - destruct (ts_pc s t) as [|o|o|o|o n|o a] eqn:P; [discriminate| | | | |].
    + destruct (locks o) eqn:L.
      * destruct (ts_lock s) eqn:LK; [discriminate|]. destruct (writer N s t) eqn:W; [discriminate|]. injection E as <-. now constructor.
      * destruct (writer N s t) eqn:W; [discriminate|]. injection E as <-. now constructor.
    + destruct (changes (ts_ms s) o) eqn:CH.
      * destruct (busy N s t) eqn:B; [discriminate|]. injection E as <-. constructor; auto. intros k H. destruct o; try reflexivity. now destruct (H k0).
      * destruct (negb (locks o) && present _ _) eqn:L; [apply andb_prop in L; destruct L as [L _]; injection E as <-; constructor; [exact P|now destruct (locks o)]|].
        unfold take_effect in E. destruct (m_step vt (ts_ms s) o) as [[m a]|] eqn:M; [|discriminate]. injection E as <-. constructor; auto.
    + unfold take_effect in E. destruct (m_step vt (ts_ms s) o) as [[m a]|] eqn:M; [|discriminate]. injection E as <-. constructor; auto.
    + destruct (negb _); [discriminate|]. destruct (m_step vt (ts_ms s) o) as [[m a]|] eqn:M; [|discriminate].
      assert (X : s' = done_with s t o m a) by (destruct a; congruence). subst s'. constructor; eauto.
    + injection E as <-. now constructor.
  - destruct (ts_pc s t) as [|o|o|o|o n|o a] eqn:P; try discriminate. destruct (negb _); [discriminate|]. destruct (m_step vt (ts_ms s) o) as [[m a]|] eqn:M; [|discriminate].
    destruct a; try discriminate. injection E as <-. constructor; eauto.
Qed.
Ltac eqt u t := destruct (Nat.eq_dec u t) as [->|?NE]; [rewrite upd_same|rewrite upd_other by assumption].
Lemma move_inv l s t s' : tinv s -> move l s t s' -> tinv s'.
Proof.
  intros I M. pose proof (ti_pc s I t) as AT. pose proof (ti_lock s I t) as LT.
  assert (NI : forall e : list mev, (forall x, In x e -> x = ECall t (MRemove 0) \/ mine t x = true) -> True) by easy. clear NI.
  assert (M1 : forall e, mine t e = true -> (forall u, u <> t -> mine u e = false)).
  { intros e H u NE. destruct e; cbn in *; apply Nat.eqb_eq in H; subst; apply Nat.eqb_neq; congruence. }
  destruct M as [o _ P TN A|o P L LK W|o P L W|o g P CH B G|o P L|o m a P M|o a P].
  - rewrite P in AT, LT. constructor; cbn [ts_ms ts_lock ts_pc ts_tr].
    + rewrite past_snoc. apply (ti_ms s I).
    + rewrite accs_snoc. cbn [acc_of]. rewrite app_nil_r. apply (ti_ans s I).
    + eapply (pc_upd_at s t _ [ECall t o]); [apply (ti_pc s I)|reflexivity| | |].
      * intros x [<-|[]]. cbn. apply Nat.eqb_refl.
      * intros u x NE [<-|[]]. cbn. apply Nat.eqb_neq. congruence.
      * exists (filter (mine t) (ts_tr s)). split; [exact AT|reflexivity].
    + intro u. eqt u t; [exact LT|apply (ti_lock s I)].
    + intros u o' n. eqt u t; [discriminate|apply (ti_use s I)].
    + intros u o'. eqt u t; [discriminate|apply (ti_chg s I)].
    + intros o' [(u & H1 & H2)|H]; [|rewrite past_snoc in H; apply (ti_all s I); now right]. revert H1 H2. eqt u t; intros H1 H2.
      * destruct H2 as [H2|[H2|[H2|(n & H2)]]]; try discriminate. now injection H2 as <-.
      * apply (ti_all s I). left. eauto.
    + intro u. eqt u t; [easy|apply (ti_N s I)].
  - rewrite P in AT, LT. constructor; cbn [ts_ms ts_lock ts_pc ts_tr]; try apply I.
    + eapply (pc_upd_at s t _ []); [apply (ti_pc s I)|now rewrite app_nil_r|easy|easy|]. rewrite app_nil_r. exact AT.
    + intro u. eqt u t; [cbn; now rewrite L|]. split; [intro H; injection H as <-; now destruct NE|]. intro H. apply (ti_lock s I) in H. congruence.
    + intros u o' n. eqt u t; [discriminate|apply (ti_use s I)].
    + intros u o'. eqt u t; [discriminate|apply (ti_chg s I)].
    + intros o' [(u & H1 & H2)|H]; [|apply (ti_all s I); now right]. revert H1 H2. eqt u t; intros H1 H2.
      * destruct H2 as [H2|[H2|[H2|(n & H2)]]]; try discriminate. injection H2 as <-. apply (ti_all s I). left. exists t. rewrite P. split; [discriminate|now left].
      * apply (ti_all s I). left. eauto.
    + intro u. eqt u t; [intros _; apply (ti_N s I); rewrite P; discriminate|apply (ti_N s I)].
  - rewrite P in AT, LT. constructor; unfold set_pc; cbn [ts_ms ts_lock ts_pc ts_tr]; try apply I.
    + eapply (pc_upd_at s t _ []); [apply (ti_pc s I)|now rewrite app_nil_r|easy|easy|]. rewrite app_nil_r. exact AT.
    + intro u. eqt u t; [cbn; rewrite L; exact LT|apply (ti_lock s I)].
    + intros u o' n. eqt u t; [discriminate|apply (ti_use s I)].
    + intros u o'. eqt u t; [discriminate|apply (ti_chg s I)].
    + intros o' [(u & H1 & H2)|H]; [|apply (ti_all s I); now right]. revert H1 H2. eqt u t; intros H1 H2.
      * destruct H2 as [H2|[H2|[H2|(n & H2)]]]; try discriminate. injection H2 as <-. apply (ti_all s I). left. exists t. rewrite P. split; [discriminate|now left].
      * apply (ti_all s I). left. eauto.
    + intro u. eqt u t; [intros _; apply (ti_N s I); rewrite P; discriminate|apply (ti_N s I)].
  - rewrite P in AT, LT. constructor; cbn [ts_ms ts_lock ts_pc ts_tr]; try apply I.
    + eapply (pc_upd_at s t _ []); [apply (ti_pc s I)|now rewrite app_nil_r|easy|easy|]. rewrite app_nil_r. exact AT.
    + intro u. eqt u t; [exact LT|apply (ti_lock s I)].
    + intros u o' n. eqt u t; [discriminate|apply (ti_use s I)].
    + intros u o'. eqt u t; [|apply (ti_chg s I)]. intro H. injection H as <-. destruct o; easy.
    + intros o' [(u & H1 & H2)|H]; [|apply (ti_all s I); now right]. revert H1 H2. eqt u t; intros H1 H2.
      * destruct H2 as [H2|[H2|[H2|(n & H2)]]]; try discriminate. injection H2 as <-. apply (ti_all s I). left. exists t. rewrite P. split; [discriminate|auto].
      * apply (ti_all s I). left. eauto.
    + intro u. eqt u t; [intros _; apply (ti_N s I); rewrite P; discriminate|apply (ti_N s I)].
  - rewrite P in AT, LT. cbn in LT. rewrite L in LT. constructor; unfold set_pc; cbn [ts_ms ts_lock ts_pc ts_tr]; try apply I.
    + eapply (pc_upd_at s t _ []); [apply (ti_pc s I)|now rewrite app_nil_r|easy|easy|]. rewrite app_nil_r. exact AT.
    + intro u. eqt u t; [exact LT|apply (ti_lock s I)].
    + intros u o' n. eqt u t; [|apply (ti_use s I)]. intro H. now injection H as <- _.
    + intros u o'. eqt u t; [discriminate|apply (ti_chg s I)].
    + intros o' [(u & H1 & H2)|H]; [|apply (ti_all s I); now right]. revert H1 H2. eqt u t; intros H1 H2.
      * destruct H2 as [H2|[H2|[H2|(n & H2)]]]; try discriminate. injection H2 as <- _. apply (ti_all s I). left. exists t. rewrite P. split; [discriminate|auto].
      * apply (ti_all s I). left. eauto.
    + intro u. eqt u t; [intros _; apply (ti_N s I); rewrite P; discriminate|apply (ti_N s I)].
  - assert (AP : exists r, closed t r /\ filter (mine t) (ts_tr s) = r ++ [ECall t o]) by (destruct P as [[P _]|[P|(n & P)]]; rewrite P in AT; exact AT).
    assert (NI : ts_pc s t <> Idle) by (destruct P as [[P _]|[P|(n & P)]]; rewrite P; discriminate).
    assert (AL : allowed o = true).
    { apply (ti_all s I). left. exists t. split; [exact NI|]. destruct P as [[P _]|[P|P]]; auto. }
    constructor; unfold done_with; cbn [ts_ms ts_lock ts_pc ts_tr].
    + rewrite past_acc. cbn [m_after]. now rewrite (ti_ms s I), M.
    + rewrite accs_snoc. cbn [acc_of]. intros x t' o' v b X.
      destruct b as [|b0 b1 _] using rev_ind.
      * apply app_inj_tail in X. destruct X as [X1 X2]. injection X2 as <- <- <-. subst x. unfold m_answer. fold (c_ops (ts_tr s)). change (rev (c_ops (ts_tr s))) with (past (ts_tr s)). now rewrite (ti_ms s I), M.
      * rewrite app_comm_cons, app_assoc in X. apply app_inj_tail in X. destruct X as [X1 X2]. exact (ti_ans s I _ _ _ _ _ X1).
    + eapply (pc_upd_at s t _ [EAcc t o a]); [apply (ti_pc s I)|reflexivity| | |].
      * intros x [<-|[]]. cbn. apply Nat.eqb_refl.
      * intros u x NE [<-|[]]. cbn. apply Nat.eqb_neq. congruence.
      * destruct AP as (r & C & ->). exists r. split; [exact C|]. now rewrite <- app_assoc.
    + intro u. eqt u t; [|apply (ti_lock s I)]. rewrite LT. cbn [holds]. destruct P as [[P _]|[P|(n & P)]]; rewrite P; cbn [holds]; try reflexivity. rewrite (ti_use s I t o n P). reflexivity.
    + intros u o' n. eqt u t; [discriminate|apply (ti_use s I)].
    + intros u o'. eqt u t; [discriminate|apply (ti_chg s I)].
    + intros o' [(u & H1 & H2)|H].
      * revert H1 H2. eqt u t; intros H1 H2; [destruct H2 as [H2|[H2|[H2|(n & H2)]]]; discriminate|]. apply (ti_all s I). left. eauto.
      * rewrite past_acc in H. destruct H as [<-|H]; [exact AL|apply (ti_all s I); now right].
    + intro u. eqt u t; [intros _; now apply (ti_N s I)|apply (ti_N s I)].
  - rewrite P in AT, LT. cbn [holds] in LT. constructor; cbn [ts_ms ts_lock ts_pc ts_tr].
    + rewrite past_snoc. apply (ti_ms s I).
    + rewrite accs_snoc. cbn [acc_of]. rewrite app_nil_r. apply (ti_ans s I).
    + eapply (pc_upd_at s t _ [ERet t o a]); [apply (ti_pc s I)|reflexivity| | |].
      * intros x [<-|[]]. cbn. apply Nat.eqb_refl.
      * intros u x NE [<-|[]]. cbn. apply Nat.eqb_neq. congruence.
      * destruct AT as (r & C & ->). cbn [at_pc]. rewrite <- app_assoc. cbn. now constructor.
    + intro u. destruct (locks o) eqn:L.
      * eqt u t; [cbn; split; discriminate|]. split; [discriminate|]. intro H. apply (ti_lock s I) in H. rewrite (proj2 LT eq_refl) in H. congruence.
      * eqt u t; [exact LT|apply (ti_lock s I)].
    + intros u o' n. eqt u t; [discriminate|apply (ti_use s I)].
    + intros u o'. eqt u t; [discriminate|apply (ti_chg s I)].
    + intros o' [(u & H1 & H2)|H]; [|rewrite past_snoc in H; apply (ti_all s I); now right]. revert H1 H2. eqt u t; intros H1 H2; [easy|]. apply (ti_all s I). left. eauto.
    + intro u. eqt u t; [easy|apply (ti_N s I)].
Qed.
Lemma tstep_inv s l s' : tinv s -> tstep s l = TRun s' -> tinv s'.
Proof. intros I E. eapply move_inv; [exact I|apply step_move; exact E]. Qed.
Lemma trun_inv ls : forall s s', tinv s -> trun s ls = TRun s' -> tinv s'.
Proof.
  induction ls as [|l ls IH]; intros s s' I E; cbn in E; [injection E as <-; exact I|]. destruct (tstep s l) as [s1| |] eqn:E1; try discriminate.
  eapply IH; [|exact E]. eapply tstep_inv; eassumption.
Qed.
Lemma trun_app l1 : forall s l2, trun s (l1 ++ l2) = match trun s l1 with TRun s1 => trun s1 l2 | x => x end.
Proof. induction l1 as [|l l1 IH]; intros s l2; [reflexivity|]. cbn. destruct (tstep s l); [apply IH|reflexivity|reflexivity]. Qed.

(** * The operations under way and done are those that were called *)
Definition every (P : mop -> Prop) (s : tst) : Prop := (forall t o, op_of (ts_pc s t) = Some o -> P o) /\ forall o, In o (past (ts_tr s)) -> P o.
Lemma every_new P : every P ts_new.
Proof. split; [discriminate|easy]. Qed.
Lemma every_step P s l s' : every P s -> (forall t o, l = LCall t o -> P o) -> tstep s l = TRun s' -> every P s'.
Proof.
  intros [H1 H2] HL E. assert (C : forall t o, l = LCall t o -> P o) by exact HL.
  destruct l as [t o|t|t].
  - cbn [MsgConModel.tstep] in E. destruct (_ && _); [|discriminate]. destruct (ts_pc s t) eqn:P0; try discriminate. injection E as <-. split; cbn [ts_pc ts_tr].
    + intros u o'. eqt u t; [|apply H1]. cbn. intro X. injection X as <-. now apply (HL t).
    + intros o'. rewrite past_snoc. apply H2.
  - apply step_move in E. cbn [who] in E. pose proof (H1 t) as HT. inversion E as [o LL P0 TN A X|o P0 L LK W X|o P0 L W X|o g P0 CH B G X|o P0 L X|o m a P0 M X|o a P0 X]; subst s'; unfold set_pc, done_with.
    1:{ discriminate. }
    all: assert (PO : P o) by (apply HT; first [rewrite P0; reflexivity|destruct P0 as [[P0 _]|[P0|(n & P0)]]; rewrite P0; reflexivity]).
    all: split; cbn [ts_pc ts_tr]; [intros u o'; eqt u t; [cbn; congruence|apply H1]|intros o'; rewrite ?past_snoc; cbn; try (intros [<-|Z]; [exact PO|]; now apply H2); apply H2].
  - apply step_move in E. cbn [who] in E. pose proof (H1 t) as HT. inversion E as [o LL P0 TN A X|o P0 L LK W X|o P0 L W X|o g P0 CH B G X|o P0 L X|o m a P0 M X|o a P0 X]; subst s'; unfold set_pc, done_with.
    1:{ discriminate. }
    all: assert (PO : P o) by (apply HT; first [rewrite P0; reflexivity|destruct P0 as [[P0 _]|[P0|(n & P0)]]; rewrite P0; reflexivity]).
    all: split; cbn [ts_pc ts_tr]; [intros u o'; eqt u t; [cbn; congruence|apply H1]|intros o'; rewrite ?past_snoc; cbn; try (intros [<-|Z]; [exact PO|]; now apply H2); apply H2].
Qed.
Lemma every_run P ls : forall s s', every P s -> (forall o, calls ls o -> P o) -> trun s ls = TRun s' -> every P s'.
Proof.
  induction ls as [|l ls IH]; intros s s' H C E; cbn in E; [injection E as <-; exact H|]. destruct (tstep s l) as [s1| |] eqn:E1; try discriminate.
  eapply IH; [|intros o (t & X); apply C; exists t; now right|exact E]. eapply every_step; [exact H| |exact E1]. intros t o ->. apply C. exists t. now left.
Qed.
Lemma roomy_sized s o : every roomy_op s -> (o = MRemove 0 \/ (exists t, op_of (ts_pc s t) = Some o)) -> tinv s -> sized (o :: past (ts_tr s)).
Proof.
  intros [H1 H2] HO I o' [<-|H].
  - destruct HO as [->|(t & HO)]; [exact Logic.I|]. pose proof (H1 t _ HO) as X. destruct o; try exact X; exact Logic.I || idtac.
    pose proof (ti_pc s I t) as AT. destruct (ts_pc s t) eqn:P; cbn in HO; try discriminate; injection HO as ->.
    all: exfalso.
    1-4: assert (Z : allowed (MBind k t0 size pos) = true) by (apply (ti_all s I); left; exists t; rewrite P; split; [discriminate|eauto 6]); discriminate.
    cbn [at_pc] in AT. destruct AT as (r & _ & AT).
    assert (IN : In (EAcc t (MBind k t0 size pos) a) (ts_tr s)).
    { assert (IN : In (EAcc t (MBind k t0 size pos) a) (filter (mine t) (ts_tr s))) by (rewrite AT; apply in_app_iff; right; right; now left). now apply filter_In in IN. }
    assert (Z : allowed (MBind k t0 size pos) = true); [|discriminate]. apply (ti_all s I). right. unfold past. apply -> in_rev. unfold c_ops. apply in_map_iff. exists (t, MBind k t0 size pos, a). split; [reflexivity|].
    unfold accs. apply in_flat_map. exists (EAcc t (MBind k t0 size pos) a). split; [exact IN|now left].
  - pose proof (H2 _ H) as X. pose proof (ti_all s I o' (or_intror H)) as A. destruct o'; try exact Logic.I; [exact X|discriminate].
Qed.
Lemma sized_past s : every roomy_op s -> tinv s -> sized (past (ts_tr s)).
Proof. intros H I. eapply sized_tl. apply (roomy_sized s (MRemove 0)); auto. Qed.
Lemma allowed_sr o : allowed o = true -> send_recv o.
Proof. now destruct o. Qed.
(** The step of an operation under way is defined, and answers as it must. *)
Lemma step_ok s t o : tinv s -> every roomy_op s -> (ts_pc s t = Want o \/ ts_pc s t = Look o \/ ts_pc s t = Change o \/ exists n, ts_pc s t = Use o n) ->
  exists m, m_step vt (ts_ms s) o = Some (m, expected vt (past (ts_tr s)) o).
Proof.
  intros I R P. assert (OP : op_of (ts_pc s t) = Some o) by (destruct P as [P|[P|[P|(n & P)]]]; rewrite P; reflexivity).
  assert (AL : allowed o = true) by (apply (ti_all s I); left; exists t; split; [intro Z; rewrite Z in OP; discriminate|exact P]).
  destruct (C30_answers vt (past (ts_tr s)) o) as [A _]; [apply roomy_sized; eauto|rewrite (ti_ms s I); discriminate|now apply allowed_sr|].
  unfold m_answer in A. rewrite (ti_ms s I) in A. destruct (m_step vt (ts_ms s) o) as [[m a]|]; [|discriminate]. injection A as ->. now exists m.
Qed.

(** * Nobody else is at the map *)
Lemma others_in t u : In u (others N t) <-> u < N /\ u <> t.
Proof.
  unfold others. rewrite filter_In, in_seq. destruct (Nat.eqb_spec u t) as [->|NE]; cbn; split.
  - intros [_ X]. discriminate.
  - intros [_ X]. now destruct X.
  - intros [[_ X] _]. now split.
  - intros [X _]. split; [lia|reflexivity].
Qed.
Lemma writer_false s t : (forall u, u <> t -> changing (ts_pc s u) = false) -> writer N s t = false.
Proof.
  intro H. unfold writer. destruct (existsb _ _) eqn:E; [|reflexivity]. apply existsb_exists in E. destruct E as (u & U & X). apply others_in in U.
  rewrite H in X by tauto. discriminate.
Qed.
Lemma busy_false s t : (forall u, u <> t -> changing (ts_pc s u) = false /\ looking (ts_pc s u) = false) -> busy N s t = false.
Proof.
  intro H. unfold busy. destruct (existsb _ _) eqn:E; [|reflexivity]. apply existsb_exists in E. destruct E as (u & U & X). apply others_in in U.
  destruct (H u) as [H1 H2]; [tauto|]. rewrite H1, H2 in X. discriminate.
Qed.
(** * Only createTopic and removeTopic *)
Lemma alone s t : tinv s -> (forall u o, op_of (ts_pc s u) = Some o -> locks o = true) -> (ts_lock s = None \/ ts_lock s = Some t) -> forall u, u <> t -> changing (ts_pc s u) = false /\ looking (ts_pc s u) = false.
Proof.
  intros I G L u NE. pose proof (ti_lock s I u) as LU. pose proof (G u) as GU.
  destruct (ts_pc s u); cbn in *; auto; specialize (GU _ eq_refl); rewrite GU in LU; cbn in LU; destruct LU as [_ LU]; specialize (LU eq_refl); destruct L; congruence.
Qed.
Lemma locked_step s l : tinv s -> (forall u o, op_of (ts_pc s u) = Some o -> locks o = true) -> tstep s l <> TUndef.
Proof.
  intros I G E. assert (MS : forall o, locks o = true -> m_step vt (ts_ms s) o <> None) by (intros o L; destruct o; discriminate).
  destruct l as [t q|t|t]; cbn [MsgConModel.tstep] in E.
  - destruct (_ && _); [|discriminate]. destruct (ts_pc s t); discriminate.
  - pose proof (ti_lock s I t) as LT. pose proof (G t) as GT. destruct (ts_pc s t) as [|q|q|q|q n|q a] eqn:P; try discriminate; specialize (GT _ eq_refl).
    + rewrite GT in E. destruct (ts_lock s) eqn:L; [discriminate|].
      rewrite writer_false in E; [discriminate|]. intros u NE. apply (alone s t I G (or_introl L) u NE).
    + cbn in LT. rewrite GT in LT, E. destruct (changes _ q).
      * rewrite busy_false in E; [discriminate|]. intros u NE. apply (alone s t I G (or_intror (proj2 LT eq_refl)) u NE).
      * cbn in E. unfold take_effect in E. specialize (MS q GT). destruct (m_step vt (ts_ms s) q) as [[m a]|]; easy.
    + unfold take_effect in E. specialize (MS q GT). destruct (m_step vt (ts_ms s) q) as [[m a]|]; easy.
    + rewrite (ti_use s I t q n P) in GT. discriminate.
  - pose proof (G t) as GT. destruct (ts_pc s t) as [|q|q|q|q n|q a] eqn:P; try discriminate; specialize (GT _ eq_refl). rewrite (ti_use s I t q n P) in GT. discriminate.
Qed.
Lemma locked_run ls : forall s, tinv s -> (forall u o, op_of (ts_pc s u) = Some o -> locks o = true) -> (forall o, calls ls o -> locks o = true) -> trun s ls <> TUndef.
Proof.
  induction ls as [|l ls IH]; intros s I G C; [discriminate|]. cbn. destruct (tstep s l) as [s1| |] eqn:E; [|exfalso; revert E; now apply locked_step|discriminate].
  apply IH; [eapply tstep_inv; eassumption| |intros o (t & X); apply C; exists t; now right].
  intros t o H. destruct l as [t0 o0|t0|t0].
  - cbn [MsgConModel.tstep] in E. destruct (_ && _); [|discriminate]. destruct (ts_pc s t0) eqn:P0; try discriminate. injection E as <-. revert H. cbn [ts_pc]. eqt t t0; [|apply G]. cbn. intro X. injection X as <-. apply C. exists t0. now left.
  - apply step_move in E. cbn [who] in E. revert H. pose proof (G t0) as GT. inversion E as [q LL P0 TN A X|q P0 L LK W X|q P0 L W X|q g P0 CH B Ge X|q P0 L X|q m a P0 M X|q a P0 X]; subst s1; unfold set_pc, done_with; cbn [ts_pc]; [discriminate|..];
    (eqt t t0; [|apply G]); cbn; intro Z; try discriminate; injection Z as <-; apply GT; first [rewrite P0; reflexivity|destruct P0 as [[P0 _]|[P0|(n & P0)]]; rewrite P0; reflexivity].
  - apply step_move in E. cbn [who] in E. revert H. pose proof (G t0) as GT. inversion E as [q LL P0 TN A X|q P0 L LK W X|q P0 L W X|q g P0 CH B Ge X|q P0 L X|q m a P0 M X|q a P0 X]; subst s1; unfold set_pc, done_with; cbn [ts_pc]; [discriminate|..];
    (eqt t t0; [|apply G]); cbn; intro Z; try discriminate; injection Z as <-; apply GT; first [rewrite P0; reflexivity|destruct P0 as [[P0 _]|[P0|(n & P0)]]; rewrite P0; reflexivity].
Qed.

(** * All topics prepared *)
Definition harmless (m : nat -> bool) (o : mop) : Prop := match o with MSend _ _ _ | MRecv _ _ => True | MCreate k _ _ => m k = true | _ => False end.
Record calm (m : nat -> bool) (s : tst) : Prop := mk_calm
  { ca_map : forall k, present (ts_ms s) k = m k;
    ca_ops : forall t o, op_of (ts_pc s t) = Some o -> harmless m o;
    ca_chg : forall t, changing (ts_pc s t) = false;
    ca_use : forall t o n, ts_pc s t = Use o n -> ts_gen s (topic_of o) = n }.
Lemma harmless_same m s o s' a : (forall k, present s k = m k) -> harmless m o -> m_step vt s o = Some (s', a) -> forall k, present s' k = m k.
Proof.
  intros HM HH E k. rewrite <- HM. unfold present. destruct o as [k' t n|k'|k' v g|k' t|k' t size pos|k' c|k' v g|c t|k'|]; cbn in HH; try contradiction; cbn [m_step] in E.
  - unfold m_create in E. rewrite <- HM in HH. unfold present in HH. destruct (tfind k' (ms_sr s)) as [[t' b]|]; [|discriminate]. injection E as <- <-. reflexivity.
  - unfold m_send in E. destruct (tfind k' (ms_sr s)) as [[t b]|] eqn:F; [|injection E as <- <-; reflexivity]. destruct (rb_push v g b) as [[b' p]|]; [|discriminate]. injection E as <- <-. cbn [set_sr ms_sr]. rewrite tfind_set.
    destruct (Nat.eqb_spec k k') as [->|]; [now rewrite F|reflexivity].
  - unfold m_recv in E. destruct (tfind k' (ms_sr s)) as [[t' b]|] eqn:F; [|injection E as <- <-; reflexivity]. destruct (rb_pop b) as [[b' [x|]]|]; [|injection E as <- <-; reflexivity|discriminate].
    destruct (got vt t x); [|discriminate]. injection E as <- <-. cbn [set_sr ms_sr]. rewrite tfind_set. destruct (Nat.eqb_spec k k') as [->|]; [now rewrite F|reflexivity].
Qed.
Lemma calm_changes m s o : (forall k, present s k = m k) -> harmless m o -> changes s o = false.
Proof. intros HM H. destruct o; cbn in *; try reflexivity; try contradiction. now rewrite HM, H. Qed.
Lemma calm_step m s l s' : calm m s -> (forall t o, l = LCall t o -> harmless m o) -> tstep s l = TRun s' -> calm m s'.
Proof.
  intros [CM CO CC CU] HL E. apply step_move in E. set (t := who l) in *. clearbody t.
  assert (MOV : forall p lk tr, changing p = false -> (forall o n, p = Use o n -> ts_gen s (topic_of o) = n) -> (forall o, op_of p = Some o -> harmless m o) -> calm m (mkTS (ts_ms s) (ts_gen s) lk (upd (ts_pc s) t p) tr)).
  { intros p lk tr H1 H2 H3. constructor; cbn [ts_ms ts_gen ts_pc]; [exact CM|..].
    - intros u o. eqt u t; [apply H3|apply CO].
    - intros u. eqt u t; [exact H1|apply CC].
    - intros u o n. eqt u t; [apply H2|apply CU]. }
  pose proof (CO t) as COT. inversion E as [o LL P0 TN A X|o P0 L LK W X|o P0 L W X|o g P0 CH B G X|o P0 L X|o ms a P0 M X|o a P0 X]; subst s'; unfold set_pc.
  - apply MOV; [reflexivity|discriminate|]. intros o' Z. injection Z as <-. now apply (HL t).
  - apply MOV; [reflexivity|discriminate|]. intros o' Z. injection Z as <-. apply COT. now rewrite P0.
  - apply MOV; [reflexivity|discriminate|]. intros o' Z. injection Z as <-. apply COT. now rewrite P0.
  - rewrite (calm_changes m) in CH; [discriminate|exact CM|]. apply COT. now rewrite P0.
  - apply MOV; [reflexivity| |].
    + intros o' n Z. injection Z as <- <-. reflexivity.
    + intros o' Z. injection Z as <-. apply COT. now rewrite P0.
  - assert (HO : harmless m o) by (apply COT; destruct P0 as [[P0 _]|[P0|(n & P0)]]; rewrite P0; reflexivity).
    constructor; unfold done_with; cbn [ts_ms ts_gen ts_pc].
    + eapply harmless_same; [exact CM|exact HO|exact M].
    + intros u o'. eqt u t; [|apply CO]. intro Z. injection Z as <-. exact HO.
    + intros u. eqt u t; [reflexivity|apply CC].
    + intros u o' n. eqt u t; [discriminate|apply CU].
  - apply MOV; [reflexivity|discriminate|discriminate].
Qed.
Lemma calm_safe m s l : tinv s -> every roomy_op s -> calm m s -> tstep s l <> TUndef.
Proof.
  intros I R [CM CO CC CU] E. destruct l as [t q|t|t]; cbn [MsgConModel.tstep] in E.
  - destruct (_ && _); [|discriminate]. destruct (ts_pc s t); discriminate.
  - rewrite (writer_false s t) in E by (intros; apply CC). pose proof (CC t) as CT. destruct (ts_pc s t) as [|q|q|q|q n|q a] eqn:P; try discriminate.
    + destruct (locks q); [destruct (ts_lock s)|]; discriminate.
    + rewrite (calm_changes m) in E; [|exact CM|apply (CO t); now rewrite P]. destruct (negb _ && _); [discriminate|]. unfold take_effect in E.
      destruct (step_ok s t q I R) as (m' & M); [auto|]. rewrite M in E. discriminate.
    + rewrite (CU t q n P), Nat.eqb_refl in E. cbn in E. destruct (step_ok s t q I R) as (m' & M); [eauto|]. rewrite M in E. destruct (expected vt (past (ts_tr s)) q); discriminate.
  - destruct (ts_pc s t) as [|q|q|q|q n|q a] eqn:P; try discriminate.
    rewrite (CU t q n P), Nat.eqb_refl in E. cbn in E. destruct (step_ok s t q I R) as (m' & M); [eauto|]. rewrite M in E. destruct (expected vt (past (ts_tr s)) q); discriminate.
Qed.
Lemma calm_run m ls : forall s, tinv s -> every roomy_op s -> calm m s -> (forall o, calls ls o -> harmless m o /\ roomy_op o) -> trun s ls <> TUndef.
Proof.
  induction ls as [|l ls IH]; intros s I R CA C; [discriminate|]. cbn. destruct (tstep s l) as [s1| |] eqn:E; [|exfalso; revert E; now apply (calm_safe m)|discriminate].
  apply IH; [eapply tstep_inv; eassumption| | |intros o (t & X); apply C; exists t; now right].
  - eapply every_step; [exact R| |exact E]. intros t o ->. apply C. exists t. now left.
  - eapply calm_step; [exact CA| |exact E]. intros t o ->. apply C. exists t. now left.
Qed.

(** * Progress *)
Definition left_of (p : mpc) : nat := match p with Idle => 0 | Want _ => 4 | Look _ => 3 | Change _ | Use _ _ => 2 | Out _ _ => 1 end.
Definition total (s : tst) : nat := list_sum (map (fun t => left_of (ts_pc s t)) (seq 0 N)).
Lemma sum_upd (g : nat -> mpc) t p l : NoDup l -> In t l -> list_sum (map (fun u => left_of (upd g t p u)) l) + left_of (g t) = list_sum (map (fun u => left_of (g u)) l) + left_of p.
Proof.
  induction l as [|x l IH]; intros ND IN; [destruct IN|]. apply NoDup_cons_iff in ND. destruct ND as [NI ND]. cbn [map list_sum fold_right]. unfold list_sum in *. cbn [fold_right]. destruct (Nat.eq_dec x t) as [->|NE].
  - rewrite upd_same. replace (map (fun u => left_of (upd g t p u)) l) with (map (fun u => left_of (g u)) l); [lia|]. apply map_ext_in. intros u U. rewrite upd_other; [reflexivity|]. intros ->. contradiction.
  - rewrite upd_other by exact NE. destruct IN as [->|IN]; [now destruct NE|]. specialize (IH ND IN). lia.
Qed.
Lemma go_less s l s' : tinv s -> (forall t o, l <> LCall t o) -> tstep s l = TRun s' -> total s' < total s.
Proof.
  intros I NC E. apply step_move in E. set (t := who l) in *. clearbody t.
  assert (X : exists p, ts_pc s' = upd (ts_pc s) t p /\ left_of p < left_of (ts_pc s t)).
  { inversion E as [o LL P0 TN A X|o P0 L LK W X|o P0 L W X|o g P0 CH B G X|o P0 L X|o m a P0 M X|o a P0 X]; subst s'; unfold set_pc, done_with; cbn [ts_pc];
      [now destruct (NC t o)|..]; eexists; (split; [reflexivity|]); try (rewrite P0; cbn; lia). destruct P0 as [[P0 _]|[P0|(n & P0)]]; rewrite P0; cbn; lia. }
  destruct X as (p & PC & LT). assert (TN : t < N) by (apply (ti_N s I); intro Z; rewrite Z in LT; cbn in LT; lia).
  unfold total. rewrite PC. pose proof (sum_upd (ts_pc s) t p (seq 0 N) (seq_NoDup N 0)) as S. rewrite in_seq in S. specialize (S ltac:(lia)). lia.
Qed.
Lemma go_run ls : forall s s', tinv s -> (forall t o, ~ In (LCall t o) ls) -> trun s ls = TRun s' -> length ls + total s' <= total s.
Proof.
  induction ls as [|l ls IH]; intros s s' I NC E; cbn [MsgConModel.trun length] in *; [injection E as <-; lia|]. destruct (tstep s l) as [s1| |] eqn:E1; try discriminate.
  assert (NL : forall t o, l <> LCall t o) by (intros t o ->; apply (NC t o); now left).
  pose proof (go_less s l s1 I NL E1). assert (NC' : forall t o, ~ In (LCall t o) ls) by (intros t o Z; apply (NC t o); now right).
  pose proof (IH s1 s' (tstep_inv _ _ _ I E1) NC' E). lia.
Qed.
Lemma total_bound s : total s <= 4 * N.
Proof.
  unfold total. assert (H : forall l, list_sum (map (fun t => left_of (ts_pc s t)) l) <= 4 * length l).
  { induction l as [|x l IH]; [cbn; lia|]. cbn [map length]. change (left_of (ts_pc s x) + list_sum (map (fun t => left_of (ts_pc s t)) l) <= 4 * S (length l)). destruct (ts_pc s x); cbn [left_of]; lia. }
  specialize (H (seq 0 N)). now rewrite seq_length in H.
Qed.
(** A thread that cannot go on waits for the mutex or for a message or for room. *)
Lemma stuck_why s t : tinv s -> every roomy_op s -> ts_pc s t <> Idle -> tstep s (LGo t) = TStuck -> (exists o u, ts_pc s t = Want o /\ ts_lock s = Some u) \/ waits s t.
Proof.
  intros I R NI E. cbn [MsgConModel.tstep] in E. destruct (ts_pc s t) as [|q|q|q|q n|q a] eqn:P; try discriminate; [now destruct NI|..].
  - left. destruct (locks q); [|destruct (writer N s t); discriminate]. destruct (ts_lock s) as [u|]; [eauto|]. destruct (writer N s t); discriminate.
  - destruct (changes _ q); [destruct (busy N s t); discriminate|]. destruct (negb _ && _); [discriminate|]. unfold take_effect in E. destruct (m_step vt (ts_ms s) q) as [[m a]|]; discriminate.
  - unfold take_effect in E. destruct (m_step vt (ts_ms s) q) as [[m a]|]; discriminate.
  - right. destruct (negb _); [discriminate|]. destruct (step_ok s t q I R) as (m & M); [eauto|]. rewrite M in E.
    assert (W : expected vt (past (ts_tr s)) q = MBlocked \/ expected vt (past (ts_tr s)) q = MTimeout) by (destruct (expected vt (past (ts_tr s)) q); auto; discriminate). clear E M.
    assert (LQ := ti_use s I t q n P). assert (AQ : allowed q = true) by (apply (ti_all s I); left; exists t; rewrite P; split; [discriminate|eauto 6]).
    exists (topic_of q), n. destruct q as [k' t' size|k'|k' v g|k' t'|k' t' size pos|k' c|k' v g|c t'|k'|]; try discriminate; cbn [expected topic_of] in *.
    + right. destruct (chan (past (ts_tr s)) k') as [[[ty c] q]|] eqn:CH; [|destruct W; discriminate]. destruct (Nat.ltb_spec (length q) (c - 1)); [destruct W; discriminate|].
      destruct g; try (destruct W; discriminate). exists v, ty, c, q. auto.
    + left. destruct (chan (past (ts_tr s)) k') as [[[ty c] q]|] eqn:CH; [|destruct W; discriminate]. destruct q as [|x q]; [|destruct (Nat.eqb (vt x) t'); destruct W; discriminate]. exists t', ty. eauto.
Qed.
Lemma holder_goes s u : tinv s -> ts_lock s = Some u -> tstep s (LGo u) <> TStuck.
Proof.
  intros I L E. apply (ti_lock s I) in L. cbn [MsgConModel.tstep] in E. destruct (ts_pc s u) as [|q|q|q|q n|q a] eqn:P; try discriminate.
  - destruct (changes _ q); [destruct (busy N s u); discriminate|]. destruct (negb _ && _); [discriminate|]. unfold take_effect in E. destruct (m_step vt (ts_ms s) q) as [[m a]|]; discriminate.
  - unfold take_effect in E. destruct (m_step vt (ts_ms s) q) as [[m a]|]; discriminate.
Qed.

(** * No call returns before it was carried out *)
Lemma not_blocked s o m a : allowed o = true -> locks o = true \/ present s (topic_of o) = false -> m_step vt s o = Some (m, a) -> a <> MBlocked.
Proof.
  intros AL H E ->. unfold present in H. destruct o as [k t n|k|k v g|k t|k t size pos|k c|k v g|c t|k|]; try discriminate; cbn [m_step locks topic_of] in *.
  - unfold m_create in E. destruct (tfind k (ms_sr s)) as [[t' b]|]; [destruct (_ && _)|]; discriminate.
  - unfold m_remove in E. destruct (tfind k (ms_sr s)); discriminate.
  - destruct H as [H|H]; [discriminate|]. unfold m_send in E. destruct (tfind k (ms_sr s)); discriminate.
  - destruct H as [H|H]; [discriminate|]. unfold m_recv in E. destruct (tfind k (ms_sr s)); discriminate.
Qed.
Definition carried (s : tst) : Prop := forall t o a, In (t, o, a) (accs (ts_tr s)) -> a <> MBlocked.
Lemma carried_step s l s' : tinv s -> carried s -> tstep s l = TRun s' -> carried s'.
Proof.
  intros I C E.
  assert (EF : forall t o m a, a <> MBlocked -> carried (done_with s t o m a)).
  { intros t o m a NB t' o' a' H. unfold done_with in H. cbn [ts_tr] in H. rewrite accs_snoc in H. apply in_app_iff in H. destruct H as [H|[H|[]]]; [now apply (C t' o')|]. injection H as <- <- <-. exact NB. }
  assert (TE : forall t o, allowed o = true -> locks o = true \/ present (ts_ms s) (topic_of o) = false -> take_effect vt s t o = TRun s' -> carried s').
  { intros t o AL H X. unfold take_effect in X. destruct (m_step vt (ts_ms s) o) as [[m a]|] eqn:M; [|discriminate]. injection X as <-. apply EF. eapply not_blocked; eassumption. }
  assert (SAME : forall m g lk pc e, acc_of e = [] -> carried (mkTS m g lk pc (ts_tr s ++ [e]))).
  { intros m g lk pc e H t' o' a' X. cbn [ts_tr] in X. rewrite accs_snoc, H, app_nil_r in X. now apply (C t' o'). }
  destruct l as [t o|t|t]; cbn [MsgConModel.tstep] in E.
  - destruct (_ && _); [|discriminate]. destruct (ts_pc s t); try discriminate. injection E as <-. now apply SAME.
  - destruct (ts_pc s t) as [|q|q|q|q n|q a] eqn:P; try discriminate.
    + destruct (locks q); [destruct (ts_lock s); [discriminate|]|]; (destruct (writer N s t); [discriminate|]); injection E as <-; exact C.
    + assert (AQ : allowed q = true) by (apply (ti_all s I); left; exists t; rewrite P; split; [discriminate|eauto 6]).
      destruct (changes _ q); [destruct (busy N s t); [discriminate|]; injection E as <-; exact C|]. destruct (negb (locks q) && present _ _) eqn:B; [injection E as <-; exact C|].
      apply (TE t q AQ); [|exact E]. destruct (locks q); [now left|right; exact B].
    + assert (AQ : allowed q = true) by (apply (ti_all s I); left; exists t; rewrite P; split; [discriminate|eauto 6]).
      apply (TE t q AQ); [left; now apply (ti_chg s I t)|exact E].
    + destruct (negb _); [discriminate|]. destruct (m_step vt (ts_ms s) q) as [[m a]|]; [|discriminate]. destruct a; try discriminate; injection E as <-; apply EF; discriminate.
    + injection E as <-. now apply SAME.
  - destruct (ts_pc s t) as [|q|q|q|q n|q a] eqn:P; try discriminate. destruct (negb _); [discriminate|]. destruct (m_step vt (ts_ms s) q) as [[m a]|]; [|discriminate]. destruct a; try discriminate; injection E as <-; apply EF; discriminate.
Qed.
Lemma carried_run ls : forall s s', tinv s -> carried s -> trun s ls = TRun s' -> carried s'.
Proof.
  induction ls as [|l ls IH]; intros s s' I C E; cbn in E; [injection E as <-; exact C|]. destruct (tstep s l) as [s1| |] eqn:E1; try discriminate.
  eapply IH; [| |exact E]; [eapply tstep_inv|eapply carried_step]; eassumption.
Qed.
(** What was put in is what was handed out and what is still there. *)
Lemma delivered k l : (forall a t o v b, l = a ++ (t, o, v) :: b -> v = expected vt (rev (map (fun x => snd (fst x)) a)) o) ->
  (forall t o a, In (t, o, a) l -> a <> MBlocked /\ allowed o = true /\ o <> MRemove k /\ (forall v g, o = MSend k v g -> g = SWait)) ->
  match chan (rev (map (fun x => snd (fst x)) l)) k with Some (_, _, q) => put_in k l = handed_out k l ++ q | None => put_in k l = [] /\ handed_out k l = [] end.
Proof.
  induction l as [|[[t o] v] l IH] using rev_ind; intros A B; [now split|].
  assert (IH1 := IH (fun a t0 o0 v0 b (E : l = a ++ (t0, o0, v0) :: b) => A a t0 o0 v0 (b ++ [(t, o, v)]) ltac:(rewrite E, <- app_assoc; reflexivity)) (fun t0 o0 a0 H => B t0 o0 a0 (proj2 (in_app_iff _ _ _) (or_introl H)))). clear IH.
  assert (V := A l t o v [] eq_refl). destruct (B t o v ltac:(apply in_app_iff; right; now left)) as (NB & AL & NR & WT).
  rewrite map_app, rev_app_distr. cbn [map rev app fst snd]. set (h := rev (map (fun x => snd (fst x)) l)) in *.
  unfold put_in, handed_out in *. rewrite !flat_map_app. cbn [flat_map]. rewrite !app_nil_r.
  destruct o as [k' t' n|k'|k' w g|k' t'|k' t' size pos|k' c|k' w g|c t'|k'|]; try discriminate; cbn [chan].
  - rewrite !app_nil_r. destruct (Nat.eqb_spec k k') as [<-|NE]; [|exact IH1]. destruct (chan h k) as [[[ty c] q]|]; [exact IH1|]. destruct IH1 as [-> ->]. reflexivity.
  - destruct (Nat.eqb_spec k k') as [<-|NE]; [now destruct NR|]. rewrite !app_nil_r. exact IH1.
  - rewrite app_nil_r. destruct (Nat.eqb_spec k k') as [<-|NE].
    + specialize (WT w g eq_refl). subst g. cbn [expected] in V. destruct (chan h k) as [[[ty c] q]|].
      * unfold q_push. destruct (length q <? c - 1); [subst v; rewrite IH1; now rewrite <- app_assoc|now destruct NB].
      * subst v. rewrite app_nil_r. exact IH1.
    + replace (match v with MOk => [] | _ => [] end) with (@nil nat) by now destruct v. rewrite app_nil_r. exact IH1.
  - rewrite app_nil_r. destruct (Nat.eqb_spec k k') as [<-|NE].
    + cbn [expected] in V. destruct (chan h k) as [[[ty c] q]|].
      * destruct q as [|x q]; [subst v; rewrite app_nil_r; exact IH1|]. replace (match v with MGot v0 | MConfused v0 => [v0] | _ => [] end) with [x] by (destruct (Nat.eqb (vt x) t'); now subst v).
        cbn [tl]. now rewrite IH1, <- app_assoc.
      * subst v. rewrite app_nil_r. exact IH1.
    + replace (match v with MGot _ | MConfused _ => [] | _ => [] end) with (@nil nat) by now destruct v. rewrite app_nil_r. exact IH1.
Qed.
End V.
