(** Progress and termination of the dynamic engine (common path). *)
From Verif Require Import GraphModel GraphSpec TopoProofs StaticModel StaticProofs StatusProofs DynModel DynInv DynProofs.
From Coq Require Import Lia.
Local Open Scope nat_scope.

Section Term.
Context (c : dcfg) (Hwf : wf (c_g c)) (Hac : acyclic (c_g c)).
Notation g := (c_g c).
Notation N := (length (els (c_g c))).

(** ** No deadlock without errors *)
Lemma no_deadlock sh : RI c sh [] -> noerr (sh_tr sh) -> total_end c <= sh_fin sh.
Proof.
  intros R Hno. destruct (r_fin c _ _ R) as [_ F]. specialize (F Hno).
  assert (E : sumf (fun d => sumf (f_tail d) [] + sumf (f_aft d) []) (ends g) = 0) by (apply sumf_zero; reflexivity).
  rewrite E in F.
  assert (Hall : forall e, In e (els g) -> finok (sh_tr sh) e = 1).
  { intros e He. pose proof (finok_le1 c sh [] e R) as Hle. destruct (Nat.eq_dec (finok (sh_tr sh) e) 0) as [Hz|]; [exfalso|lia].
    set (L := filter (fun x => Nat.eqb (finok (sh_tr sh) x) 0) (els g)).
    destruct (no_minimal_cycle (edge g) L e) as [z [_ Hc]].
    - apply filter_In. split; [exact He|]. apply Nat.eqb_eq; exact Hz.
    - intros x Hx. apply filter_In in Hx. destruct Hx as [Hx Hx0]. apply Nat.eqb_eq in Hx0.
      assert (Hr : rel (sh_tr sh) [] x = 0).
      { unfold rel. pose proof (r_body c _ _ R x) as Hb. rewrite <- finok_noerr in Hb by exact Hno. simpl in *. lia. }
      destruct (r_left c _ _ R x Hx Hr) as [_ Hl]. destruct (Hl Hno) as [_ Hw]. apply sumf_pos in Hw. destruct Hw as [d [Hd Hu]].
      exists d. split; [|split; assumption]. apply filter_In. split; [apply (wf_dep g Hwf x Hx); exact Hd|]. apply Nat.eqb_eq.
      unfold und in Hu. cbn [sumf] in Hu. lia.
    - exact (Hac z Hc). }
  rewrite Nat.add_0_r in F. rewrite F. unfold total_end.
  assert (Hin : forall l, incl l (els g) -> length l <= sumf (finok (sh_tr sh)) l).
  { induction l as [|a l IH]; intros Hi; simpl; [lia|]. rewrite Hall by (apply Hi; left; reflexivity).
    assert (length l <= sumf (finok (sh_tr sh)) l) by (apply IH; intros y Hy; apply Hi; right; exact Hy). lia. }
  apply Hin. intros x Hx. apply (ends_in c) in Hx. apply Hx.
Qed.

(** A label some thread can take by itself (not a spurious wake up, not a call of run()). *)
Definition internal (l : dlabel) : Prop := match l with LRun | LSpurious => False | _ => True end.

Lemma can_step s : d_main s <> MIdle -> 0 < c_workers c -> (forall p, In p (d_act s) -> p <> []) ->
  (exists l s', internal l /\ dstep c s l = Some s') \/ (d_main s = MAsleep /\ d_act s = [] /\ d_pool s = []).
Proof.
  intros Hm Hw Hp.
  assert (Em : d_main s = MAsleep \/ exists s', dstep c s (LMain st_default) = Some s').
  { simpl. destruct (d_main s) as [| | |[|o l]|[|n]| | | | | |] eqn:E; try (left; reflexivity); try contradiction; right; eauto.
    destruct (op_sem c (d_sh s) o st_default) as [[[sh' new] enq] nt]. eauto. }
  destruct Em as [Em|[s' Hs']]; [|left; exists (LMain st_default), s'; split; [exact I|exact Hs']].
  destruct (d_act s) as [|p ps] eqn:Ea.
  - destruct (d_pool s) as [|e pl] eqn:Ep; [right; auto|]. left. exists (LPick 0). simpl. rewrite Ea, Ep. simpl.
    destruct (Nat.ltb 0 (c_workers c)) eqn:El; [eauto|]. apply Nat.ltb_ge in El. lia.
  - left. destruct p as [|o rest]; [exfalso; apply (Hp []); [left; reflexivity|reflexivity]|].
    exists (LWork 0 st_default). simpl. rewrite Ea, Em. simpl.
    assert (Een : op_enabled MAsleep o = true) by (destruct o; reflexivity). rewrite Een.
    destruct (op_sem c (d_sh s) o st_default) as [[[sh' new] enq] nt]. eauto.
Qed.

Lemma progress s : Inv c s -> 0 < c_workers c -> d_main s <> MIdle ->
  (exists l s', internal l /\ dstep c s l = Some s') \/
  (d_main s = MAsleep /\ d_act s = [] /\ d_pool s = [] /\ ~ noerr (sh_tr (d_sh s))).
Proof.
  intros I Hw Hm. destruct (can_step s Hm Hw (v_progs c s I)) as [H|[Em [Ea Ep]]]; [left; exact H|right].
  split; [exact Em|]. split; [exact Ea|]. split; [exact Ep|]. intros Hno.
  pose proof (v_phase c s I) as R. pose proof (v_wait c s I) as W. unfold waiter_ok in W. rewrite Em in R, W.
  unfold all_ops in *. rewrite Em, Ea, Ep in *. simpl in *. pose proof (no_deadlock _ R Hno). lia.
Qed.

(** ** A reported error is recorded, or about to be *)
Definition recorded (s : dst) : Prop :=
  noerr (sh_tr (d_sh s)) \/ isErr (sh_stat (d_sh s)) = true \/ exists e r, (code r < 0)%Z /\ In (OErr e r) (all_ops s).

Lemma recorded_work lb s s' : recorded s -> is_work lb s s' c -> recorded s'.
Proof.
  intros Hr [o [r [sh' [new [enq [nt [B0 [Hs [_ [Esh [P1 [P2 _]]]]]]]]]]]].
  assert (Hin : forall x, In x (all_ops s') <-> In x (new ++ map OExec enq ++ B0)).
  { intros x. split; apply Permutation_in; [exact P2|symmetry; exact P2]. }
  assert (Hin0 : forall x, In x (all_ops s) -> x = o \/ In x B0).
  { intros x Hx. apply (Permutation_in _ P1) in Hx. destruct Hx as [<-|Hx]; auto. }
  destruct (op_facts c _ _ _ _ _ _ _ Hs) as [_ [Fst _]].
  unfold recorded in *. rewrite Esh.
  destruct Hr as [Hno|[He|[e [v [Hv Hx]]]]].
  - assert (Hcase : sh_tr sh' = sh_tr (d_sh s) \/ (exists x, sh_tr sh' = sh_tr (d_sh s) ++ [GStart x]) \/
       (exists x v, sh_tr sh' = sh_tr (d_sh s) ++ [GFinish x v] /\ ((0 <= code v)%Z \/ ((code v < 0)%Z /\ In (OErr x v) new)))).
    { clear - Hs. destruct o as [e a|e|e|e|e r0| |e|e l res|e|]; cbn [op_sem] in Hs.
      4: { destruct (isErr r) eqn:Er; inversion Hs; subst; right; right; exists e, r; (split; [reflexivity|]).
           - right. split; [apply isErr_code; exact Er|left; reflexivity].
           - left. apply isErr_false; exact Er. }
      3: { inversion Hs; subst. right; left. exists e. reflexivity. }
      all: left; repeat match type of Hs with
       | context [if ?b then _ else _] => destruct b
       | context [match calc_shape ?a ?b ?x with _ => _ end] => destruct (calc_shape a b x)
       | context [match ?l with [] => _ | _ :: _ => _ end] => destruct l
       | context [match ?x with Some _ => _ | None => _ end] => destruct x
       end; inversion Hs; subst; reflexivity. }
    destruct Hcase as [->|[[x ->]|[x [v [-> [Hv|[Hv Hi]]]]]]].
    + left; exact Hno.
    + left. apply noerr_start; exact Hno.
    + left. apply noerr_finish; split; assumption.
    + right; right. exists x, v. split; [exact Hv|]. apply Hin, in_or_app. left. exact Hi.
  - right; left. rewrite (Fst He). exact He.
  - destruct (Hin0 _ Hx) as [<-|Hx0].
    + simpl in Hs. inversion Hs; subst. right; left. simpl. rewrite st_plus_isErr. apply orb_true_iff. right. apply isErr_code; exact Hv.
    + right; right. exists e, v. split; [exact Hv|]. apply Hin, in_or_app. right. apply in_or_app. right. exact Hx0.
Qed.

Lemma recorded_step s l s' : Inv c s -> recorded s -> dstep c s l = Some s' -> recorded s'.
Proof.
  intros I Hr H. destruct l as [|r|i r|i|].
  - simpl in H. destruct (d_main s); inversion H; subst. left. intros e v [].
  - destruct (d_main s) as [| | |[|o l]|[|n]| | | | | |] eqn:E.
    5: { eapply recorded_work; [exact Hr|]. eapply mrun_step; [exact E|right; exact Logic.I|exact H]. }
    all: pose proof (v_phase c s I) as P; unfold recorded, all_ops in *; simpl in H; rewrite E in *; inversion H; subst; clear H; simpl in *; auto.
    + destruct P as [_ [Ht _]]. left. destruct (isOK _); simpl; rewrite Ht; intros x v [].
    + destruct P as [_ [Ht _]]. left. rewrite Ht. intros x v [].
    + destruct (Nat.leb _ _); simpl; exact Hr.
    + destruct (Nat.leb _ _); simpl; exact Hr.
    + destruct (isErr (sh_stat (d_sh s))); simpl; exact Hr.
  - eapply recorded_work; [exact Hr|]. apply work_step with (1 := H).
  - apply pick_step in H. destruct H as [H1 [_ [_ [P _]]]]. unfold recorded in *. rewrite H1. destruct Hr as [|[|[e [v [Hv Hx]]]]]; auto.
    right; right. exists e, v. split; [exact Hv|]. eapply Permutation_in; [symmetry; exact P|exact Hx].
  - simpl in H. unfold recorded, all_ops in *. destruct (d_main s); inversion H; subst; simpl in *. exact Hr.
Qed.

Lemma recorded_run : forall ls s s', Inv c s -> recorded s -> disciplined c s ls -> drun c s ls = Some s' -> recorded s'.
Proof.
  induction ls as [|l ls IH]; intros s s' I Hr D H; simpl in H; [inversion H; subst; exact Hr|].
  destruct D as [D1 D2]. destruct (dstep c s l) as [s1|] eqn:E; [|discriminate].
  apply (IH s1); [eapply (Inv_step c Hwf Hac); eassumption|eapply recorded_step; eassumption|exact D2|exact H].
Qed.

(** ** Measure *)
Definition wP : nat := 2 * N + 20.
Definition wK : nat := 2 * N + 19.
Lemma wP_wK : wP = wK + 1.
Proof. unfold wP, wK. lia. Qed.
Lemma sumf_const {A} (k : nat) (l : list A) : sumf (fun _ => k) l = k * length l.
Proof. induction l; simpl; lia. Qed.
Definition w (o : op) : nat :=
  match o with
  | OProc _ _ => wP
  | OEnq _ => 2 * N + 19
  | OExec _ => 2 * N + 17
  | OBody _ => 2 * N + 16
  | OErr _ _ => 1
  | ONotify | OLockNotify => 6
  | OAfter _ => 2 * N + 9
  | ODecs _ l None => 2 * length l + 2
  | ODecs _ l (Some _) => 2 * length l + 2 + wP
  | OTail _ => 8
  end.
Definition potf (tr : list gevent) (B : list op) (e : nat) : nat := if Nat.eqb (rel tr B e) 0 then wK else 0.
Definition pot (tr : list gevent) (B : list op) : nat := sumf (potf tr B) (els g).

Lemma pot_same tr B tr' B' : (forall x, rel tr' B' x = rel tr B x) -> pot tr' B' = pot tr B.
Proof. intros H. apply sumf_ext. intros x _. unfold potf. rewrite H. reflexivity. Qed.

Lemma pot_gen (f f' : nat -> nat) S l : NoDup l -> NoDup S -> incl S l ->
  (forall x, In x l -> f' x + wK * b2n (memb x S) = f x) -> sumf f' l + wK * length S = sumf f l.
Proof.
  intros Hl HS Hi H.
  assert (E : sumf f l = sumf (fun x => f' x + wK * b2n (memb x S)) l) by (apply sumf_ext; intros x Hx; symmetry; auto).
  rewrite E, sumf_plus. f_equal. clear - Hl HS Hi.
  assert (E : length S = sumf (fun x => b2n (memb x S)) l).
  { revert S HS Hi. induction l as [|a l IH]; intros S HS Hi; simpl.
    - destruct S as [|y S]; [reflexivity|]. destruct (Hi y); left; reflexivity.
    - inversion Hl as [|? ? Ha Hl']; subst.
      destruct (in_dec_nat a S) as [Hin|Hn].
      + apply in_split in Hin. destruct Hin as [S1 [S2 ->]].
        assert (Hnd : NoDup (S1 ++ S2) /\ ~ In a (S1 ++ S2)) by (split; [eapply NoDup_remove_1; eassumption|eapply NoDup_remove_2; eassumption]).
        destruct Hnd as [Hnd Hna].
        assert (M : memb a (S1 ++ a :: S2) = true) by (apply memb_in, in_or_app; right; left; reflexivity). rewrite M. simpl.
        rewrite app_length. simpl. rewrite Nat.add_succ_r. f_equal.
        rewrite <- app_length, (IH Hl' (S1 ++ S2) Hnd).
        * apply sumf_ext. intros x Hx. f_equal.
          destruct (memb x (S1 ++ S2)) eqn:E1; symmetry.
          -- apply memb_in. apply memb_in in E1. apply in_or_app. apply in_app_or in E1. destruct E1; [left|right; right]; assumption.
          -- apply memb_false. apply memb_false in E1. intros Hx2. apply in_app_or in Hx2. apply E1, in_or_app.
             destruct Hx2 as [|[->|]]; auto. contradiction.
        * intros x Hx. assert (Hx2 : In x (S1 ++ a :: S2)) by (apply in_or_app; apply in_app_or in Hx; destruct Hx; [left|right; right]; assumption).
          destruct (Hi x Hx2) as [->|]; [contradiction|assumption].
      + assert (M : memb a S = false) by (apply memb_false; exact Hn). rewrite M. simpl. apply IH; auto.
        intros x Hx. destruct (Hi x Hx) as [->|]; [contradiction|assumption]. }
  rewrite E. clear. induction l as [|a l IH]; simpl; [lia|]. rewrite Nat.mul_add_distr_l, IH. reflexivity.
Qed.

Lemma pot_release tr B tr' B' S : NoDup S -> incl S (els g) ->
  (forall x, In x S -> rel tr B x = 0) -> (forall x, In x (els g) -> rel tr' B' x = rel tr B x + b2n (memb x S)) ->
  pot tr' B' + wK * length S = pot tr B.
Proof.
  intros HS Hi H0 H. apply pot_gen; auto; [apply Hwf|]. intros x Hx. unfold potf. rewrite H by exact Hx.
  destruct (memb x S) eqn:M; simpl.
  - apply memb_in in M. rewrite (H0 x M). simpl. lia.
  - rewrite Nat.add_0_r. lia.
Qed.

Lemma pot_drop tr B B' y : (forall x, rel tr B x = rel tr B' x + b2n (Nat.eqb y x)) -> pot tr B' <= pot tr B + wK.
Proof.
  intros H. unfold pot. pose proof (wf_els g Hwf) as Hnd. revert Hnd. induction (els g) as [|a l IH]; intros Hnd; simpl; [lia|].
  inversion Hnd as [|? ? Ha Hl]; subst. specialize (IH Hl).
  unfold potf at 1 3. rewrite (H a). destruct (Nat.eqb_spec y a) as [->|Hne]; simpl.
  - assert (E : sumf (potf tr B') l = sumf (potf tr B) l).
    { apply sumf_ext. intros x Hx. unfold potf. rewrite (H x). destruct (Nat.eqb_spec a x); [subst; contradiction|]. simpl. rewrite Nat.add_0_r. reflexivity. }
    rewrite E. destruct (Nat.eqb (rel tr B' a) 0); destruct (Nat.eqb (rel tr B' a + 1) 0); lia.
  - rewrite Nat.add_0_r. lia.
Qed.

Lemma succ_len e : In e (els g) -> length (succ g e) <= N.
Proof. intros He. destruct (wf_succ g Hwf e He). apply NoDup_incl_length; assumption. Qed.

Lemma op_measure sh o r B sh' new enq nt : RI c sh (o :: B) -> op_sem c sh o r = (sh', new, enq, nt) ->
  pot (sh_tr sh') (new ++ map OExec enq ++ B) + sumf w new + sumf w (map OExec enq) + length enq + (if nt then 5 else 0)
  < pot (sh_tr sh) (o :: B) + w o.
Proof.
  intros R H. pose proof (r_wfop c _ _ R o (or_introl eq_refl)) as Hw.
  destruct o as [e aff|e|e|e|e r0| |e|e l res|e|]; simpl in H, Hw.
  - destruct (isErr (sh_stat sh)).
    + inversion H; subst; simpl. pose proof (pot_drop (sh_tr sh') (OProc e aff :: B) B e). unfold rel in H0 at 1 2. simpl in H0.
      assert (pot (sh_tr sh') B <= pot (sh_tr sh') (OProc e aff :: B) + wK) by (apply H0; intros; lia). unfold wP, wK in *. lia.
    + destruct (aff && is_default c e); inversion H; subst; simpl;
        rewrite (pot_same (sh_tr sh') (OProc e aff :: B)) by reflexivity; unfold wP; lia.
  - inversion H; subst; simpl. rewrite (pot_same (sh_tr sh') (OEnq e :: B)) by reflexivity. lia.
  - inversion H; subst; simpl. rewrite (pot_same (sh_tr sh) (OExec e :: B)); [lia|]. intros x. unfold rel. rewrite cnt_starts_st. simpl. lia.
  - destruct (isErr r); inversion H; subst; simpl; rewrite (pot_same (sh_tr sh) (OBody e :: B)); try lia; intros x; unfold rel; rewrite starts_fin; reflexivity.
  - inversion H; subst; simpl. rewrite (pot_same (sh_tr sh) (OErr e r0 :: B)) by reflexivity. lia.
  - inversion H; subst; simpl. rewrite (pot_same (sh_tr sh') (ONotify :: B)) by reflexivity. lia.
  - destruct (isErr (sh_stat sh)).
    + inversion H; subst; simpl. rewrite (pot_same (sh_tr sh') (OAfter e :: B)) by reflexivity. lia.
    + pose proof (calc_shape_spec c Hwf e Hw) as Hs. pose proof (succ_len e Hw) as Hsl.
      assert (Hrel0 : forall x, In x (succ g e) -> rel (sh_tr sh) (OAfter e :: B) x = 0).
      { intros x Hx. destruct (succ_in_els c Hwf e x Hw Hx) as [Hxe Hd]. apply (pend_not_rel c sh _ e x R Hxe Hd).
        simpl. rewrite Nat.eqb_refl, (proj2 (memb_in _ _) Hx). simpl. lia. }
      destruct (wf_succ g Hwf e Hw) as [Hnd Hincl].
      destruct (calc_shape g (c_bind c) e) eqn:Esh.
      * inversion H; subst; simpl. rewrite (pot_same (sh_tr sh') (OAfter e :: B)) by reflexivity. lia.
      * destruct Hs as [x [Es [Ed _]]]. rewrite Es in *. inversion H; subst. simpl.
        pose proof (pot_release (sh_tr sh') (OAfter e :: B) (sh_tr sh') (OProc x true :: B) [x]) as Hp. simpl in Hp.
        assert (Hp' : pot (sh_tr sh') (OProc x true :: B) + wK * 1 = pot (sh_tr sh') (OAfter e :: B)).
        { apply Hp; auto. intros y Hy. unfold rel. simpl. rewrite Nat.eqb_sym. destruct (Nat.eqb y x); simpl; lia. }
        unfold wP, wK in *. lia.
      * destruct Hs as [Hne Hd]. inversion H; subst. cbn [map app length sumf].
        set (ops := map _ (succ g e)).
        assert (Hp : pot (sh_tr sh') (ops ++ B) + wK * length (succ g e) = pot (sh_tr sh') (OAfter e :: B)).
        { apply pot_release; auto. intros x Hx. unfold rel. rewrite sumf_app. simpl.
          pose proof (tok_map_proc x (fun y => Nat.eqb y (last (succ g e) 0)) (succ g e) Hnd) as Ht. cbv beta in Ht. unfold ops. rewrite Ht. lia. }
        assert (Hwo : sumf w ops = wP * length (succ g e)).
        { unfold ops. rewrite sumf_map. cbn [w]; apply sumf_const. }
        rewrite Hwo, wP_wK, Nat.mul_add_distr_r. cbn [w]. lia.
      * inversion H; subst; simpl. rewrite (pot_same (sh_tr sh') (OAfter e :: B)) by reflexivity. lia.
  - destruct l as [|x l].
    + destruct res as [x|]; inversion H; subst; simpl.
      * rewrite (pot_same (sh_tr sh') (ODecs e [] (Some x) :: B)) by reflexivity. lia.
      * rewrite (pot_same (sh_tr sh') (ODecs e [] None :: B)) by reflexivity. lia.
    + destruct Hw as [He [Hincl [Hnd [Hsne Hres]]]].
      assert (Hxs : In x (succ g e)) by (apply Hincl; left; reflexivity). destruct (succ_in_els c Hwf e x He Hxs) as [Hxe Hxd].
      assert (Hrelx : rel (sh_tr sh) (ODecs e (x :: l) res :: B) x = 0).
      { apply (pend_not_rel c sh _ e x R Hxe Hxd). simpl. rewrite !Nat.eqb_refl. simpl. lia. }
      assert (Hrl : forall B', (forall y, rel (sh_tr sh) B' y = rel (sh_tr sh) (ODecs e (x :: l) res :: B) y + b2n (Nat.eqb x y)) ->
                pot (sh_tr sh) B' + wK = pot (sh_tr sh) (ODecs e (x :: l) res :: B)).
      { intros B' HB. rewrite <- (Nat.mul_1_r wK). apply (pot_release _ _ _ B' [x]).
        - repeat constructor; intros [].
        - intros y [<-|[]]; exact Hxe.
        - intros y [<-|[]]; exact Hrelx.
        - intros y _. rewrite HB. simpl. rewrite Nat.eqb_sym. destruct (Nat.eqb y x); reflexivity. }
      destruct (sh_left sh x - 1 =? 0)%Z; [destruct res as [y|]|]; inversion H; subst; cbn [sh_tr app map sumf length].
      * specialize (Hrl (OProc x false :: ODecs e l (Some y) :: B)). assert (Hp := Hrl ltac:(intros z; unfold rel; simpl; lia)). simpl w. unfold wP, wK in *. simpl length in *. lia.
      * specialize (Hrl (ODecs e l (Some x) :: B)). assert (Hp := Hrl ltac:(intros z; unfold rel; simpl; lia)). simpl w. unfold wP, wK in *. simpl length in *. lia.
      * rewrite (pot_same (sh_tr sh) (ODecs e (x :: l) res :: B)) by (intros z; unfold rel; destruct res; reflexivity). destruct res; simpl; lia.
  - inversion H; subst; clear H. cbn [sh_tr map app sumf length w].
    match goal with |- context [if ?b then [OLockNotify] else []] => destruct b end; cbn [app sumf w].
    + rewrite (pot_same (sh_tr sh) (OTail e :: B)) by reflexivity. lia.
    + rewrite (pot_same (sh_tr sh) (OTail e :: B)) by reflexivity. lia.
  - inversion H; subst; simpl. rewrite (pot_same (sh_tr sh') (OLockNotify :: B)) by reflexivity. lia.
Qed.

Definition mw (m : mphase) : nat :=
  match m with
  | MIdle => 0 | MPrep => 9 + c_epoch c + wP * N + wK * N | MStore => 8 + c_epoch c + wP * N + wK * N | MRun _ => 7 + c_epoch c | MPoll n => 5 + n
  | MLock => 4 | MEvalFin => 3 | MEvalErr => 2 | MPreSleep => 1 | MAsleep => 0 | MRet => 1
  end.
(** Before the run proper starts no potential is counted. *)
Definition mpot (s : dst) : nat :=
  match d_main s, d_out s with
  | MPrep, _ | MStore, _ | MIdle, None => 0
  | _, _ => pot (sh_tr (d_sh s)) (all_ops s)
  end.
Definition measure (s : dst) : nat := mpot s + sumf w (all_ops s) + length (d_pool s) + mw (d_main s).

Lemma pot_bound tr B : pot tr B <= wK * N.
Proof. unfold pot. induction (els g) as [|a l IH]; simpl; [lia|]. unfold potf at 1. destruct (Nat.eqb (rel tr B a) 0); lia. Qed.

Lemma w_harmless o r sh sh' new enq nt : harmless_op c o -> op_sem c sh o r = (sh', new, enq, nt) ->
  new = [] /\ enq = [] /\ (if nt then 5 else 0) < w o.
Proof. intros [->|[->|[e [-> _]]]] H; simpl in H; inversion H; subst; simpl; repeat split; lia. Qed.

Lemma work_measure lb s s' : Inv c s -> Inv c s' -> is_work lb s s' c -> measure s' < measure s.
Proof.
  intros I I' [o [r [sh' [new [enq [nt [B0 [Hs [Hen [Esh [P1 [P2 [Eo [Em [Er Epl]]]]]]]]]]]]]]].
  assert (Hmw : mw (d_main s') <= mw (d_main s) + (if nt then 4 else 0)).
  { destruct (d_main s) eqn:E; try (rewrite Em; simpl; destruct nt; simpl; lia). destruct (Er _ eq_refl) as [l' E']. rewrite E'. simpl. lia. }
  assert (Hw : sumf w (all_ops s) = w o + sumf w B0) by (rewrite (sumf_perm w _ _ P1); reflexivity).
  assert (Hw' : sumf w (all_ops s') = sumf w new + sumf w (map OExec enq) + sumf w B0) by (rewrite (sumf_perm w _ _ P2), !sumf_app; lia).
  assert (Hpot : pot (sh_tr (d_sh s)) (all_ops s) = pot (sh_tr (d_sh s)) (o :: B0)).
  { apply pot_same. intros x. unfold rel. rewrite (sumf_perm _ _ _ P1). reflexivity. }
  assert (Hpot' : pot (sh_tr (d_sh s')) (all_ops s') = pot (sh_tr sh') (new ++ map OExec enq ++ B0)).
  { rewrite Esh. apply pot_same. intros x. unfold rel. rewrite (sumf_perm _ _ _ P2). reflexivity. }
  assert (Hharm : harmless c (all_ops s) -> mpot s' = mpot s -> measure s' < measure s).
  { intros Hh Hmp. pose proof (harmless_perm c _ _ P1 Hh o (or_introl eq_refl)) as Ho. destruct (w_harmless _ _ _ _ _ _ _ Ho Hs) as [-> [-> Hlt]].
    unfold measure. rewrite Hmp, Hw, Hw', Epl. cbn [sumf map length]. destruct nt; lia. }
  assert (HRI : RI c (d_sh s) (all_ops s) -> mpot s' <= pot (sh_tr (d_sh s')) (all_ops s') -> mpot s = pot (sh_tr (d_sh s)) (all_ops s) -> measure s' < measure s).
  { intros R E1 E2. apply (RI_perm c _ _ _ P1) in R. pose proof (op_measure _ _ _ _ _ _ _ _ R Hs) as Hm.
    unfold measure. rewrite E2, Hw, Hw', Epl. rewrite Hpot. rewrite Hpot' in E1. destruct nt; lia. }
  pose proof (v_phase c s I) as Ph.
  assert (Hle : mpot s' <= pot (sh_tr (d_sh s')) (all_ops s')) by (unfold mpot; destruct (d_main s'); try lia; destruct (d_out s'); lia).
  assert (Hmain : (forall l, d_main s <> MRun l) -> d_main s' = wake nt (d_main s)) by (intros Hn; destruct (d_main s); try exact Em; exfalso; eapply Hn; reflexivity).
  destruct (d_main s) eqn:E.
  1: { destruct (d_out s) as [st|] eqn:Eo'.
       - apply HRI; [apply Ph|exact Hle|]. unfold mpot. rewrite E, Eo'. reflexivity.
       - apply Hharm; [apply Ph|]. unfold mpot. rewrite E, Eo', Eo, (Hmain ltac:(discriminate)). reflexivity. }
  1,2: apply Hharm; [apply Ph|]; unfold mpot; rewrite E, (Hmain ltac:(discriminate)); reflexivity.
  all: apply HRI; [exact Ph|exact Hle|]; unfold mpot; rewrite E; reflexivity.
Qed.

Lemma front_w : sumf w (front_ops g) <= wP * N.
Proof.
  unfold front_ops. rewrite sumf_map. simpl.
  assert (length (fronts g) <= N) by apply filter_length_le.
  rewrite sumf_const. apply Nat.mul_le_mono_l. exact H.
Qed.

Definition spur (l : dlabel) : nat := match l with LSpurious => 5 | _ => 0 end.

Lemma step_measure s lb s' : Inv c s -> lb <> LRun -> dstep c s lb = Some s' -> S (measure s') <= measure s + spur lb.
Proof.
  intros I Hn H. assert (I' : Inv c s') by (apply (Inv_step c Hwf Hac s lb s' I); [intros E; contradiction|exact H]). destruct lb as [|r|i r|i|].
  - congruence.
  - destruct (d_main s) as [| | |[|o l]|[|n]| | | | | |] eqn:E.
    5: { simpl. pose proof (mrun_step c s o l r s' E (or_intror Logic.I) H) as W. pose proof (work_measure _ s s' I I' W). lia. }
    all: simpl in H; rewrite E in H; inversion H; subst; clear H; unfold measure, mpot, all_ops; rewrite E; cbn [d_main d_pool d_act d_sh d_out main_ops app mw spur].
    + destruct (isOK (sh_stat (d_sh s))); simpl; lia.
    + rewrite !sumf_app. pose proof front_w.
      match goal with |- context [pot ?t ?b] => pose proof (pot_bound t b) end. lia.
    + lia.
    + destruct (d_out s); lia.
    + destruct (Nat.leb _ _); cbn [main_ops app mw]; lia.
    + lia.
    + destruct (Nat.leb _ _); cbn [main_ops app mw]; lia.
    + destruct (isErr _); cbn [main_ops app mw]; lia.
    + lia.
    + lia.
  - simpl spur. pose proof (work_measure _ s s' I I' (work_step c s i r s' H)). lia.
  - pose proof H as H0. apply pick_step in H0. destruct H0 as [H1 [H2 [H3 [P _]]]]. simpl spur.
    assert (Hmp : mpot s' = mpot s).
    { unfold mpot. rewrite H1, H2, H3. assert (E : pot (sh_tr (d_sh s)) (all_ops s') = pot (sh_tr (d_sh s)) (all_ops s)) by (apply pot_same; intros x; unfold rel; rewrite (sumf_perm _ _ _ P); reflexivity).
      rewrite E. reflexivity. }
    unfold measure. rewrite Hmp, H2, (sumf_perm w _ _ P). simpl in H. destruct (Nat.ltb _ _); [|discriminate]. destruct (nth_error (d_pool s) i) eqn:En; [|discriminate].
    inversion H; subst; simpl. apply nth_error_remove, Permutation_length in En. simpl in En. lia.
  - simpl in H. destruct (d_main s) eqn:E; try discriminate. inversion H; subst; clear H. unfold measure, mpot, all_ops. rewrite E. cbn [d_main d_pool d_act d_sh d_out main_ops app mw spur]. lia.
Qed.

Lemma drun_measure : forall ls s s', Inv c s -> ~ In LRun ls -> drun c s ls = Some s' ->
  length ls + measure s' <= measure s + sumf spur ls.
Proof.
  induction ls as [|l ls IH]; intros s s' I Hn H; simpl in H; [inversion H; subst; simpl; lia|].
  destruct (dstep c s l) as [s1|] eqn:E; [|discriminate].
  assert (Hl : l <> LRun) by (intros ->; apply Hn; left; reflexivity).
  assert (I1 : Inv c s1) by (apply (Inv_step c Hwf Hac s l s1 I); [intros X; contradiction|exact E]).
  specialize (IH s1 s' I1 (fun Hx => Hn (or_intror Hx)) H). pose proof (step_measure s l s1 I Hl E). simpl. lia.
Qed.
End Term.
