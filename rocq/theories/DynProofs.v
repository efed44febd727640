(** State-level invariant, progress and termination of the dynamic engine (common path). *)
From Verif Require Import GraphModel GraphSpec TopoProofs StaticModel StaticProofs StatusProofs DynModel DynInv.
From Coq Require Import Lia.
Local Open Scope nat_scope.

(** All pending operations of the caller, the workers and the queue. *)
Definition main_ops (m : mphase) : list op := match m with MRun l => l | _ => [] end.
Definition all_ops (s : dst) : list op := main_ops (d_main s) ++ concat (d_act s) ++ map OExec (d_pool s).

(** ** Lists of programs *)
Lemma nth_error_remove {A} : forall i (l : list A) x, nth_error l i = Some x -> Permutation l (x :: remove_nth i l).
Proof.
  induction i as [|i IH]; intros [|y l] x H; simpl in H; try discriminate.
  - inversion H; subst. reflexivity.
  - simpl. rewrite perm_swap. constructor. apply IH; exact H.
Qed.
Lemma replace_nth_perm {A} : forall i (l : list A) x y, nth_error l i = Some x -> Permutation (replace_nth i y l) (y :: remove_nth i l).
Proof.
  induction i as [|i IH]; intros [|z l] x y H; simpl in H; try discriminate; simpl; [reflexivity|].
  rewrite perm_swap. constructor. eapply IH; exact H.
Qed.
Lemma concat_perm {A} (l1 l2 : list (list A)) : Permutation l1 l2 -> Permutation (concat l1) (concat l2).
Proof.
  induction 1; simpl; auto.
  - apply Permutation_app_head; assumption.
  - rewrite !app_assoc. apply Permutation_app_tail, Permutation_app_comm.
  - etransitivity; eassumption.
Qed.
Lemma concat_put {A} i (act : list (list A)) q p : nth_error act i = Some q ->
  Permutation (concat (match p with [] => remove_nth i act | _ => replace_nth i p act end)) (p ++ concat (remove_nth i act)).
Proof.
  intros H. destruct p as [|o p]; [reflexivity|].
  rewrite (concat_perm _ _ (replace_nth_perm i act q (o :: p) H)). reflexivity.
Qed.
Lemma in_remove_nth {A} i (l : list A) x : In x (remove_nth i l) -> In x l.
Proof. revert l. induction i as [|i IH]; intros [|y l] H; simpl in *; auto. destruct H; auto. Qed.
Lemma in_replace_nth {A} i (l : list A) x y : In x (replace_nth i y l) -> x = y \/ In x l.
Proof. revert l. induction i as [|i IH]; intros [|z l] H; simpl in *; auto; destruct H; auto. apply IH in H. tauto. Qed.

Lemma perm_cnt {A} (M N R C P Q : list A) : Permutation (M ++ ((N ++ R) ++ C) ++ P ++ Q) (N ++ Q ++ M ++ R ++ C ++ P).
Proof.
  rewrite (app_assoc _ P Q). rewrite (Permutation_app_comm (_ ++ P) Q). rewrite (app_assoc M Q), (Permutation_app_comm M Q), <- !app_assoc.
  rewrite (app_assoc M N), (Permutation_app_comm M N), <- !app_assoc. rewrite (app_assoc Q N), (Permutation_app_comm Q N), <- !app_assoc. reflexivity.
Qed.
Lemma perm_cnt2 {A} (R C P Q : list A) : Permutation (R ++ C ++ P ++ Q) (Q ++ R ++ C ++ P).
Proof. rewrite !app_assoc. rewrite <- (app_assoc Q R C), <- (app_assoc Q (R ++ C) P), (Permutation_app_comm Q). reflexivity. Qed.

(** ** Shape of a step inside a run *)
Definition is_work (lb : dlabel) (s s' : dst) (c : dcfg) : Prop :=
  exists o r sh' new enq nt B0,
    op_sem c (d_sh s) o r = (sh', new, enq, nt) /\ op_enabled (d_main s) o = true /\ d_sh s' = sh' /\
    Permutation (all_ops s) (o :: B0) /\ Permutation (all_ops s') (new ++ map OExec enq ++ B0) /\ d_out s' = d_out s /\
    d_main s' = match d_main s with MRun _ => d_main s' | _ => wake nt (d_main s) end /\
    (forall l, d_main s = MRun l -> exists l', d_main s' = MRun l') /\ length (d_pool s') = length (d_pool s) + length enq.

Lemma main_ops_wake n m : main_ops (wake n m) = main_ops m.
Proof. destruct m; try reflexivity. destruct n; reflexivity. Qed.

Lemma work_step c s i r s' : dstep c s (LWork i r) = Some s' -> is_work (LWork i r) s s' c.
Proof.
  intros H. simpl in H. destruct (nth_error (d_act s) i) as [[|o rest]|] eqn:En; try discriminate.
  destruct (op_enabled (d_main s) o) eqn:Ee; [|discriminate].
  destruct (op_sem c (d_sh s) o r) as [[[sh' new] enq] nt] eqn:Es. inversion H; subst; clear H.
  exists o, r, sh', new, enq, nt, (main_ops (d_main s) ++ rest ++ concat (remove_nth i (d_act s)) ++ map OExec (d_pool s)).
  repeat split; simpl; try assumption.
  - unfold all_ops. rewrite (concat_perm _ _ (nth_error_remove _ _ _ En)). simpl.
    rewrite <- app_assoc. symmetry. apply Permutation_middle.
  - unfold all_ops. simpl. rewrite main_ops_wake, (concat_put i (d_act s) _ (new ++ rest) En), map_app.
    apply perm_cnt.
  - destruct (d_main s); reflexivity.
  - intros l E. rewrite E. simpl. eauto.
  - apply app_length.
Qed.

Lemma mrun_step c s o rest r s' : d_main s = MRun (o :: rest) -> o <> OLockNotify \/ True -> dstep c s (LMain r) = Some s' -> is_work (LMain r) s s' c.
Proof.
  intros Em _ H. simpl in H. rewrite Em in H. destruct (op_sem c (d_sh s) o r) as [[[sh' new] enq] nt] eqn:Es. inversion H; subst; clear H.
  exists o, r, sh', new, enq, nt, (rest ++ concat (d_act s) ++ map OExec (d_pool s)).
  repeat split; simpl; try assumption.
  - rewrite Em. destruct o; reflexivity.
  - unfold all_ops. rewrite Em. reflexivity.
  - unfold all_ops. simpl. rewrite map_app, <- !app_assoc. apply Permutation_app_head.
    apply perm_cnt2.
  - rewrite Em. reflexivity.
  - eauto.
  - apply app_length.
Qed.

Lemma pick_step c s i s' : dstep c s (LPick i) = Some s' ->
  d_sh s' = d_sh s /\ d_main s' = d_main s /\ d_out s' = d_out s /\ Permutation (all_ops s') (all_ops s) /\
  (forall p, In p (d_act s') -> In p (d_act s) \/ p <> []).
Proof.
  intros H. simpl in H. destruct (Nat.ltb (length (d_act s)) (c_workers c)); [|discriminate].
  destruct (nth_error (d_pool s) i) as [e|] eqn:En; [|discriminate]. inversion H; subst; clear H. simpl.
  repeat split; try reflexivity.
  - unfold all_ops. simpl. apply Permutation_app_head. rewrite concat_app. simpl. rewrite <- app_assoc. apply Permutation_app_head.
    symmetry. change (Permutation (map OExec (d_pool s)) (map OExec (e :: remove_nth i (d_pool s)))). apply Permutation_map, nth_error_remove, En.
  - intros p Hp. apply in_app_or in Hp. destruct Hp as [Hp|[<-|[]]]; [auto|right; discriminate].
Qed.

Section Inv.
Context (c : dcfg) (Hwf : wf (c_g c)) (Hac : acyclic (c_g c)).
Notation g := (c_g c).

(** Operations left over from an earlier run that only wake threads up. *)
Definition harmless_op (o : op) : Prop := o = ONotify \/ o = OLockNotify \/ (exists e, o = ODecs e [] None /\ wf_op c [] o).
Definition harmless (B : list op) : Prop := forall o, In o B -> harmless_op o.
Definition ready (sh : shared) : Prop := sh_stat sh = st_default /\ forall e, In e (els g) -> sh_left sh e = left0 g e.

(** Number of pending "lock and notify". *)
Definition f_ln (o : op) : nat := match o with OLockNotify => 1 | _ => 0 end.

Definition finished_ok (s : dst) : Prop := total_end c <= sh_fin (d_sh s).

Definition waiter_ok (s : dst) : Prop :=
  match d_main s with
  | MEvalErr | MPreSleep | MAsleep => sh_fin (d_sh s) < total_end c \/ 0 < sumf f_ln (all_ops s)
  | MRet => finished_ok s \/ isErr (sh_stat (d_sh s)) = true
  | _ => True
  end.

Record Inv (s : dst) : Prop := {
  v_progs : forall p, In p (d_act s) -> p <> [];
  v_phase : match d_main s with
            | MIdle => match d_out s with
                       | None => harmless (all_ops s) /\ ready (d_sh s) /\ sh_tr (d_sh s) = []
                       | Some st => RI c (d_sh s) (all_ops s) /\ st = sh_stat (d_sh s) /\ (finished_ok s \/ isErr st = true)
                       end
            | MPrep => harmless (all_ops s) /\ sh_tr (d_sh s) = [] /\ (isOK (sh_stat (d_sh s)) = true -> ready (d_sh s))
            | MStore => harmless (all_ops s) /\ sh_tr (d_sh s) = [] /\ ready (d_sh s)
            | _ => RI c (d_sh s) (all_ops s)
            end;
  v_out : d_main s <> MIdle -> d_out s = None;
  v_wait : waiter_ok s;
}.

Lemma fronts_in e : In e (fronts g) <-> In e (els g) /\ dep g e = [].
Proof. unfold fronts. rewrite filter_In. destruct (dep g e); simpl; intuition congruence. Qed.

Lemma harmless_weight (f : op -> nat) B : harmless B -> f ONotify = 0 -> f OLockNotify = 0 -> (forall e, f (ODecs e [] None) = 0) -> sumf f B = 0.
Proof. intros H H1 H2 H3. apply sumf_zero. intros o Ho. destruct (H o Ho) as [->|[->|[e [-> _]]]]; auto. Qed.

Lemma RI_start sh H : harmless H -> sh_tr sh = [] -> ready sh -> sh_fin sh = 0 -> RI c sh (front_ops g ++ H).
Proof.
  intros Hh Htr [Hst Hl] Hfin.
  assert (Hw : forall f, f ONotify = 0 -> f OLockNotify = 0 -> (forall e, f (ODecs e [] None) = 0) -> sumf f (front_ops g ++ H) = sumf f (front_ops g)).
  { intros f H1 H2 H3. rewrite sumf_app, (harmless_weight f H Hh H1 H2 H3). lia. }
  assert (Hz : forall f, (forall x a, f (OProc x a) = 0) -> f ONotify = 0 -> f OLockNotify = 0 -> (forall e, f (ODecs e [] None) = 0) -> sumf f (front_ops g ++ H) = 0).
  { intros f Hf H1 H2 H3. rewrite Hw by assumption. apply sumf_zero. intros o Ho. apply in_map_iff in Ho. destruct Ho as [x [<- _]]. apply Hf. }
  assert (Hfnd : NoDup (fronts g)) by (apply NoDup_filter, Hwf).
  assert (Hpd : forall d x e, f_pend c d x (ODecs e [] None) = 0) by (intros; simpl; rewrite andb_false_r; reflexivity).
  assert (Htok : forall x, sumf (f_tok x) (front_ops g ++ H) = b2n (memb x (fronts g))).
  { intros x. rewrite Hw by reflexivity. apply (tok_map_proc x (fun e => Nat.eqb e (last (fronts g) 0))). exact Hfnd. }
  assert (Hrel : forall x, rel (sh_tr sh) (front_ops g ++ H) x = b2n (memb x (fronts g))).
  { intros x. unfold rel. rewrite Htok, Htr. simpl. change (cnt x []) with 0. lia. }
  assert (Hwaits : forall x, waits c (sh_tr sh) (front_ops g ++ H) x = length (dep g x)).
  { intros x. unfold waits. transitivity (sumf (fun _ => 1) (dep g x)).
    - apply sumf_ext. intros d _. unfold und. rewrite Htr, Hz by auto. reflexivity.
    - induction (dep g x); simpl; auto. }
  constructor.
  - intros e. rewrite Hrel. destruct (memb e (fronts g)); simpl; lia.
  - intros e. rewrite Htr, Hz by reflexivity. reflexivity.
  - intros e. rewrite !Hz by reflexivity. lia.
  - intros e d He Hd Hr. rewrite Hrel in Hr. destruct (memb e (fronts g)) eqn:M; [|simpl in Hr; lia].
    apply memb_in, fronts_in in M. destruct M as [_ M]. rewrite M in Hd. contradiction.
  - intros e He Hr. rewrite Hrel in Hr. rewrite Hwaits, Hl by exact He. unfold left0.
    assert (0 < length (dep g e)).
    { destruct (dep g e) eqn:Ed; [|simpl; lia]. assert (M : memb e (fronts g) = true) by (apply memb_in, fronts_in; auto). rewrite M in Hr. discriminate. }
    split; [lia|]. intros _. split; [lia|assumption].
  - intros e H0. rewrite Htr in H0. change (cnt e (starts [])) with 0 in H0. lia.
  - intros e He. rewrite Hl by exact He. unfold left0. lia.
  - intros o Ho. apply in_app_or in Ho. destruct Ho as [Ho|Ho].
    + apply in_map_iff in Ho. destruct Ho as [x [<- Hx]]. simpl. apply fronts_in in Hx. apply Hx.
    + destruct (Hh o Ho) as [->|[->|[e [-> Hx]]]]; [exact I|exact I|exact Hx].
  - rewrite Htr, Hfin. assert (E : sumf (fun d => sumf (f_tail d) (front_ops g ++ H) + sumf (f_aft d) (front_ops g ++ H)) (ends g) = 0).
    { apply sumf_zero. intros d _. rewrite !Hz by reflexivity. reflexivity. }
    rewrite E. assert (E2 : sumf (finok []) (ends g) = 0) by (apply sumf_zero; intros; reflexivity). rewrite E2. split; auto.
  - left; exact Hst.
  - rewrite Htr. intros t1 e t2 Ht. destruct t1; discriminate.
Qed.

(** ** When all ends have finished, everything has *)
Lemma sumf_le_len (f : nat -> nat) l : (forall x, In x l -> f x <= 1) -> sumf f l <= length l.
Proof.
  induction l as [|a l IH]; intros H; simpl; [lia|]. assert (f a <= 1) by (apply H; left; reflexivity).
  assert (sumf f l <= length l) by (apply IH; intros x Hx; apply H; right; exact Hx). lia.
Qed.
Lemma sumf_bound (f : nat -> nat) l : (forall x, In x l -> f x <= 1) -> length l <= sumf f l -> forall x, In x l -> f x = 1.
Proof.
  induction l as [|a l IH]; intros Hf Hl x Hx; simpl in *; [contradiction|].
  assert (Hs : sumf f l <= length l) by (apply sumf_le_len; auto).
  assert (f a <= 1) by (apply Hf; auto). destruct Hx as [->|Hx]; [lia|]. apply IH; auto. lia.
Qed.

Lemma finok_started sh B e : RI c sh B -> 0 < finok (sh_tr sh) e -> 0 < cnt e (starts (sh_tr sh)).
Proof. intros R H. pose proof (r_body c _ _ R e). pose proof (finok_le (sh_tr sh) e). lia. Qed.

Lemma all_ends_all sh B : RI c sh B -> total_end c <= sh_fin sh -> forall e, In e (els g) -> finok (sh_tr sh) e = 1.
Proof.
  intros R Hfin.
  assert (Hends : forall x, In x (ends g) -> finok (sh_tr sh) x = 1).
  { apply sumf_bound.
    - intros x _. apply (finok_le1 c sh B x R).
    - destruct (r_fin c _ _ R) as [F _]. unfold total_end in Hfin. lia. }
  intros e He. pose proof (finok_le1 c sh B e R).
  destruct (Nat.eq_dec (finok (sh_tr sh) e) 0) as [Hz|]; [exfalso|lia].
  set (L := filter (fun x => Nat.eqb (finok (sh_tr sh) x) 0) (els g)).
  destruct (no_minimal_cycle (fun y x => In x (els g) /\ In y (els g) /\ In y (succ g x)) L e) as [z [_ Hc]].
  - unfold L. apply filter_In. split; [exact He|]. apply Nat.eqb_eq; exact Hz.
  - intros x Hx. unfold L in Hx. apply filter_In in Hx. destruct Hx as [Hx Hx0]. apply Nat.eqb_eq in Hx0.
    destruct (succ g x) as [|y l] eqn:Es.
    + assert (In x (ends g)) by (apply ends_in; auto). rewrite Hends in Hx0 by assumption. discriminate.
    + assert (Hy : In y (succ g x)) by (rewrite Es; left; reflexivity).
      destruct (succ_in_els c Hwf x y Hx Hy) as [Hye Hd].
      exists y. split; [|rewrite <- Es; auto]. unfold L. apply filter_In. split; [exact Hye|]. apply Nat.eqb_eq.
      destruct (Nat.eq_dec (finok (sh_tr sh) y) 0) as [|Hn]; [assumption|exfalso].
      assert (Hst : 0 < cnt y (starts (sh_tr sh))) by (apply (finok_started sh B); [exact R|lia]).
      destruct (r_rel c _ _ R y x Hye Hd) as [F _]; [unfold rel; lia|]. lia.
  - apply (Hac z). clear - Hc Hwf.
    assert (Hsub : forall a b, clos_trans nat (fun y x => In x (els g) /\ In y (els g) /\ In y (succ g x)) a b -> path g b a).
    { intros a b Hab. induction Hab as [a b [H1 [H2 H3]]|a m b _ IH1 _ IH2].
      - apply t_step. split; [assumption|]. apply (wf_sym g Hwf); assumption.
      - eapply t_trans; eassumption. }
    apply Hsub; exact Hc.
Qed.

Lemma done_quiet sh B : RI c sh B -> total_end c <= sh_fin sh ->
  sh_stat sh = st_default /\ noerr (sh_tr sh) /\ all_ran g (sh_tr sh) /\ (forall e, In e (els g) -> sh_left sh e = left0 g e).
Proof.
  intros R Hfin. pose proof (all_ends_all sh B R Hfin) as Hall.
  assert (Hs1 : forall e, In e (els g) -> cnt e (starts (sh_tr sh)) = 1).
  { intros e He. pose proof (started_le1 c sh B e R). pose proof (finok_started sh B e R). rewrite Hall in H0 by exact He. lia. }
  assert (Hf1 : forall e, In e (els g) -> cnt e (map fst (finishes (sh_tr sh))) = 1).
  { intros e He. pose proof (r_body c _ _ R e). pose proof (finok_le (sh_tr sh) e). rewrite Hall in H0 by exact He. rewrite Hs1 in H by exact He. lia. }
  assert (Hno : noerr (sh_tr sh)).
  { intros e r Hin.
    assert (Hfin2 : 0 < cnt e (map fst (finishes (sh_tr sh)))).
    { apply cnt_in. apply in_map_iff. exists (e, r). split; [reflexivity|]. apply in_finishes; exact Hin. }
    assert (He : In e (els g)). { apply (r_started c _ _ R e). pose proof (r_body c _ _ R e). lia. }
    destruct (finok_in (sh_tr sh) e) as [r' [Hr' Hc']]; [rewrite Hall by exact He; lia|].
    assert (E : r = r').
    { eapply nodup_fst_unique; [|apply in_finishes; exact Hin|apply in_finishes; exact Hr'].
      apply cnt_nodup. intros x. pose proof (r_body c _ _ R x). pose proof (started_le1 c sh B x R). lia. }
    subst r'. exact Hc'. }
  split.
  - destruct (r_stat c _ _ R) as [E|[E [x Hx]]]; [exact E|]. apply Hno in Hx. lia.
  - split; [exact Hno|]. split.
    + split; apply NoDup_Permutation; try apply Hwf.
      * apply cnt_nodup. intros x. apply (started_le1 c sh B x R).
      * intros x. rewrite cnt_in. split; intros Hx; [apply (r_started c _ _ R x Hx)|rewrite Hs1 by exact Hx; lia].
      * apply cnt_nodup. intros x. pose proof (r_body c _ _ R x). pose proof (started_le1 c sh B x R). lia.
      * intros x. rewrite cnt_in. split; intros Hx; [|rewrite Hf1 by exact Hx; lia].
        apply (r_started c _ _ R x). pose proof (r_body c _ _ R x). lia.
    + intros e He. apply (r_started c _ _ R e). rewrite Hs1 by exact He. lia.
Qed.

(** Once finished, the only operations left are wake ups. *)
Lemma done_harmless sh B : RI c sh B -> total_end c <= sh_fin sh -> harmless B.
Proof.
  intros R Hfin o Ho. unfold harmless_op.
  pose proof (all_ends_all sh B R Hfin) as Hall. destruct (done_quiet sh B R Hfin) as [_ [Hno [[Hp1 Hp2] _]]].
  pose proof (r_wfop c _ _ R o Ho) as Hw.
  assert (Hst : forall e, In e (els g) -> cnt e (starts (sh_tr sh)) = 1).
  { intros e He. pose proof (started_le1 c sh B e R). pose proof (finok_started sh B e R). rewrite Hall in H0 by exact He. lia. }
  assert (Htok : forall e, In e (els g) -> sumf (f_tok e) B = 0).
  { intros e He. pose proof (r_once c _ _ R e) as H. unfold rel in H. rewrite Hst in H by exact He. lia. }
  assert (Hno2 : forall e d, In e (els g) -> In d (dep g e) -> sumf (f_pend c d e) B = 0).
  { intros e d He Hd. destruct (r_rel c _ _ R e d He Hd); [unfold rel; rewrite Hst by exact He; lia|assumption]. }
  assert (Hends : forall e, In e (ends g) -> sumf (f_tail e) B = 0 /\ sumf (f_aft e) B = 0).
  { intros e He. destruct (r_fin c _ _ R) as [_ F]. specialize (F Hno).
    assert (sumf (finok (sh_tr sh)) (ends g) <= length (ends g)).
    { apply sumf_le_len. intros x _. apply (finok_le1 c sh B x R). }
    pose proof (sumf_in (fun d => sumf (f_tail d) B + sumf (f_aft d) B) _ e He) as H1. simpl in H1. unfold total_end in Hfin. lia. }
  assert (Hin : forall f : op -> nat, sumf f B = 0 -> f o = 0) by (intros f Hf; pose proof (sumf_in f B o Ho); lia).
  destruct o as [e a|e|e|e|e r0| |e|e l res|e|]; simpl in Hw; auto; try (destruct l as [|y l]; [destruct res; [|right; right; exists e; split; [reflexivity|exact Hw]]|]); exfalso.
  - specialize (Hin _ (Htok e Hw)). simpl in Hin. rewrite Nat.eqb_refl in Hin. discriminate.
  - specialize (Hin _ (Htok e Hw)). simpl in Hin. rewrite Nat.eqb_refl in Hin. discriminate.
  - specialize (Hin _ (Htok e Hw)). simpl in Hin. rewrite Nat.eqb_refl in Hin. discriminate.
  - assert (Hb0 : sumf (f_body e) B = 0).
    { pose proof (r_body c _ _ R e) as H. rewrite Hst in H by exact Hw. pose proof (finok_le (sh_tr sh) e). rewrite Hall in H0 by exact Hw. lia. }
    specialize (Hin _ Hb0). simpl in Hin. rewrite Nat.eqb_refl in Hin. discriminate.
  - destruct Hw as [Hc Hx]. apply Hno in Hx. lia.
  - destruct (succ g e) as [|y l] eqn:Es.
    + destruct (Hends e) as [_ H]; [apply ends_in; auto|]. specialize (Hin _ H). simpl in Hin. rewrite Nat.eqb_refl in Hin. discriminate.
    + assert (Hy : In y (succ g e)) by (rewrite Es; left; reflexivity). destruct (succ_in_els c Hwf e y Hw Hy) as [Hye Hd].
      specialize (Hin _ (Hno2 y e Hye Hd)). simpl in Hin. apply memb_in in Hy. rewrite Nat.eqb_refl, Hy in Hin. discriminate.
  - destruct Hw as [He [Hil [Hnd [Hne Hres]]]]. specialize (Hin _ (Htok n (Hres n eq_refl))). simpl in Hin. rewrite Nat.eqb_refl in Hin. discriminate.
  - destruct Hw as [He [Hil [Hnd [Hne Hres]]]]. assert (Hy : In y (succ g e)) by (apply Hil; left; reflexivity). destruct (succ_in_els c Hwf e y He Hy) as [Hye Hd].
      specialize (Hin _ (Hno2 y e Hye Hd)). simpl in Hin. rewrite !Nat.eqb_refl in Hin. discriminate.
  - destruct (Hends e Hw) as [H _]. specialize (Hin _ H). simpl in Hin. rewrite Nat.eqb_refl in Hin. discriminate.
Qed.

(** ** Preservation *)
Lemma op_facts sh o r sh' new enq nt : op_sem c sh o r = (sh', new, enq, nt) ->
  (sh_fin sh' = sh_fin sh \/ (sh_fin sh' = S (sh_fin sh) /\ (sh_fin sh' = total_end c -> 0 < sumf f_ln new))) /\
  (isErr (sh_stat sh) = true -> sh_stat sh' = sh_stat sh) /\
  (o = OLockNotify -> nt = true) /\
  (harmless_op o -> sh' = sh /\ new = [] /\ enq = []).
Proof.
  intros H. destruct o as [e a|e|e|e|e r0| |e|e l res|e|]; cbn [op_sem] in H.
  all: repeat match type of H with
       | context [if ?b then _ else _] => destruct b eqn:?
       | context [match calc_shape ?a ?b ?x with _ => _ end] => destruct (calc_shape a b x)
       | context [match ?l with [] => _ | _ :: _ => _ end] => destruct l
       | context [match ?x with Some _ => _ | None => _ end] => destruct x
       end; inversion H; subst; clear H; simpl.
  all: split; [first [left; reflexivity|right; split; [reflexivity|]]|].
  all: try (split; [auto|]; split; [congruence|]; intros [X|[X|[e0 [X _]]]]; try discriminate X; auto).
  - split; [apply st_plus_err|]. split; [congruence|]. intros [X|[X|[e0 [X _]]]]; discriminate X.
  - intros _. lia.
  - intros E. exfalso. match goal with H : Nat.eqb _ _ = false |- _ => apply Nat.eqb_neq in H; lia end.
Qed.

Lemma progs_step s lb s' : dstep c s lb = Some s' -> (forall p, In p (d_act s) -> p <> []) -> forall p, In p (d_act s') -> p <> [].
Proof.
  intros H Hp p Hin. destruct lb as [|r|i r|i|].
  - simpl in H. destruct (d_main s); inversion H; subst; simpl in Hin; auto.
  - simpl in H. destruct (d_main s) as [| | |[|o l]|[|n]| | | | | |]; try (inversion H; subst; simpl in Hin; auto; fail).
    destruct (op_sem c (d_sh s) o r) as [[[sh' new] enq] nt]. inversion H; subst; simpl in Hin; auto.
  - simpl in H. destruct (nth_error (d_act s) i) as [[|o rest]|]; try discriminate. destruct (op_enabled (d_main s) o); [|discriminate].
    destruct (op_sem c (d_sh s) o r) as [[[sh' new] enq] nt]. inversion H; subst; simpl in Hin. clear H.
    destruct (new ++ rest) as [|o' p'].
    + apply in_remove_nth in Hin. auto.
    + apply in_replace_nth in Hin. destruct Hin as [->|Hin]; [discriminate|auto].
  - apply pick_step in H. destruct H as [_ [_ [_ [_ H]]]]. apply H in Hin. destruct Hin; auto.
  - simpl in H. destruct (d_main s); inversion H; subst; simpl in Hin; auto.
Qed.

Lemma harmless_perm B B' : Permutation B B' -> harmless B -> harmless B'.
Proof. intros P H o Ho. apply H. eapply Permutation_in; [symmetry; exact P|exact Ho]. Qed.

Lemma work_inv lb s s' : (forall p, In p (d_act s') -> p <> []) -> Inv s -> is_work lb s s' c -> Inv s'.
Proof.
  intros Hp I [o [r [sh' [new [enq [nt [B0 [Hs [Hen [Esh [P1 [P2 [Eo [Em [Er _]]]]]]]]]]]]]]].
  destruct (op_facts _ _ _ _ _ _ _ Hs) as [Ffin [Fst [Fln Fh]]].
  assert (Hharm : harmless (all_ops s) -> d_sh s' = d_sh s /\ harmless (all_ops s')).
  { intros Hh. pose proof (harmless_perm _ _ P1 Hh) as Hh2. destruct (Fh (Hh2 o (or_introl eq_refl))) as [-> [-> ->]].
    split; [exact Esh|]. eapply harmless_perm; [symmetry; exact P2|]. intros x Hx. apply Hh2. right; exact Hx. }
  assert (HRI : RI c (d_sh s) (all_ops s) -> RI c (d_sh s') (all_ops s')).
  { intros R. apply (RI_perm c _ _ _ P1) in R. rewrite Esh. eapply RI_perm; [symmetry; exact P2|]. eapply RI_op; eassumption. }
  assert (Hfin : finished_ok s -> finished_ok s') by (unfold finished_ok; rewrite Esh; lia).
  assert (Herr : isErr (sh_stat (d_sh s)) = true -> isErr (sh_stat (d_sh s')) = true) by (rewrite Esh; intros E; rewrite (Fst E); exact E).
  assert (Hwt : o <> OLockNotify -> sh_fin (d_sh s) < total_end c \/ 0 < sumf f_ln (all_ops s) -> sh_fin (d_sh s') < total_end c \/ 0 < sumf f_ln (all_ops s')).
  { intros Hno [Hlt|Hln].
    - rewrite Esh. destruct Ffin as [E|[E E2]]; [left; lia|].
      destruct (Nat.eq_dec (sh_fin sh') (total_end c)) as [E3|]; [|left; lia]. right. rewrite (sumf_perm f_ln _ _ P2), sumf_app. specialize (E2 E3). lia.
    - right. rewrite (sumf_perm f_ln _ _ P1) in Hln. simpl in Hln. rewrite (sumf_perm f_ln _ _ P2), !sumf_app. destruct o; simpl in Hln; try lia. congruence. }
  destruct I as [Ip Iph Io Iw].
  assert (Hcase : (exists l l', d_main s = MRun l /\ d_main s' = MRun l') \/ ((forall l, d_main s <> MRun l) /\ d_main s' = wake nt (d_main s))).
  { destruct (d_main s) eqn:E; try (right; split; [discriminate|exact Em]). left. destruct (Er _ eq_refl) as [l' E']. eauto. }
  destruct Hcase as [[l [l' [E1 E2]]]|[Hnr E2]].
  - constructor; try assumption.
    + rewrite E2. rewrite E1 in Iph. auto.
    + intros _. rewrite Eo. apply Io. congruence.
    + unfold waiter_ok. rewrite E2. exact I.
  - constructor; try assumption.
    + rewrite E2. destruct (d_main s) eqn:E; simpl; auto.
      * rewrite Eo. destruct (d_out s) as [st|].
        -- destruct Iph as [R [Est Hd]]. specialize (HRI R). split; [exact HRI|]. destruct Hd as [Hd|Hd].
           ++ split; [|left; auto]. destruct (done_quiet _ _ R Hd) as [D1 _]. destruct (done_quiet _ _ HRI (Hfin Hd)) as [D2 _]. congruence.
           ++ split; [|auto]. rewrite Esh, Fst; [exact Est|]. rewrite <- Est. exact Hd.
        -- destruct Iph as [Hh [Hr Ht]]. destruct (Hharm Hh) as [-> Hh']. auto.
      * destruct Iph as [Hh [Ht Hr]]. destruct (Hharm Hh) as [-> Hh']. auto.
      * destruct Iph as [Hh [Ht Hr]]. destruct (Hharm Hh) as [-> Hh']. auto.
      * destruct nt; auto.
    + intros Hn. rewrite Eo. apply Io. intros E. rewrite E in E2. simpl in E2. contradiction.
    + unfold waiter_ok in *. rewrite E2. destruct (d_main s) eqn:E; simpl; auto.
      * apply Hwt; auto. intros ->. discriminate.
      * apply Hwt; auto. intros ->. discriminate.
      * destruct nt; [exact I|]. apply Hwt; auto. intros ->. specialize (Fln eq_refl). discriminate.
      * destruct Iw; auto.
Qed.

(** A pool without waiting or running tasks. *)
Definition idle (s : dst) : Prop := d_pool s = [] /\ d_act s = [].
(** run() is called again after a failed run only once the pool is idle. *)
Definition may_call (s : dst) : Prop := forall st, d_out s = Some st -> (code st < 0)%Z -> idle s.

Lemma Inv_step s lb s' : Inv s -> (lb = LRun -> may_call s) -> dstep c s lb = Some s' -> Inv s'.
Proof.
  intros I Hcall H. pose proof (progs_step s lb s' H (v_progs s I)) as Hp. destruct lb as [|r|i r|i|].
  - specialize (Hcall eq_refl). destruct I as [Ip Iph Io Iw]. simpl in H. destruct (d_main s) eqn:E; try discriminate. inversion H; subst; clear H.
    constructor; simpl; auto; [|exact Logic.I].
    unfold all_ops in *. rewrite E in *. simpl in *. destruct (d_out s) as [st|] eqn:Eo.
    + destruct Iph as [R [Est Hd]]. destruct Hd as [Hd|Hd].
      * split; [eapply done_harmless; eassumption|]. split; [reflexivity|]. intros _.
        destruct (done_quiet _ _ R Hd) as [D1 [_ [_ D2]]]. split; assumption.
      * apply isErr_code in Hd. destruct (Hcall st Eo Hd) as [E1 E2]. rewrite E1, E2. simpl. split; [intros o []|]. split; [reflexivity|].
        subst st. intros HOK. apply isOK_code in HOK. lia.
    + destruct Iph as [Hh [Hr Ht]]. auto.
  - clear Hcall. destruct (d_main s) as [| | |[|o l]|[|n]| | | | | |] eqn:E.
    4: { pose proof I as I0. destruct I0 as [Ip Iph Io Iw]. simpl in H. rewrite E in *. inversion H; subst; clear H. constructor; simpl; auto; [|intros _; apply Io; discriminate|exact Logic.I].
         unfold all_ops in *. rewrite E in Iph. exact Iph. }
    4: { eapply work_inv; [exact Hp|exact I|]. eapply mrun_step; [exact E|right; exact Logic.I|exact H]. }
    all: destruct I as [Ip Iph Io Iw]; unfold waiter_ok, all_ops in *; simpl in H; rewrite E in *; inversion H; subst; clear H; simpl in *.
    + destruct Iph as [Hh [Ht Hr]]. constructor; unfold waiter_ok, all_ops; simpl; auto. 
      * split; [exact Hh|]. destruct (isOK (sh_stat (d_sh s))) eqn:EO; [split; [exact Ht|auto]|]. simpl. split; [exact Ht|].
        unfold ready, st_reset; simpl. unfold isOK in EO. rewrite EO. simpl. split; [reflexivity|].
        intros e He. unfold refresh_all. apply memb_in in He. rewrite He. reflexivity.
      * intros _; apply Io; discriminate.
    + destruct Iph as [Hh [Ht Hr]]. constructor; unfold waiter_ok, all_ops; simpl; auto; [|intros _; apply Io; discriminate].
      apply RI_start; auto.
    + constructor; unfold waiter_ok, all_ops; simpl; auto. intros _; apply Io; discriminate.
    + destruct (Nat.leb (total_end c) (sh_fin (d_sh s))) eqn:EL; constructor; unfold waiter_ok, all_ops; simpl; auto; try (intros _; apply Io; discriminate).
      left. apply Nat.leb_le. exact EL.
    + constructor; unfold waiter_ok, all_ops; simpl; auto. intros _; apply Io; discriminate.
    + destruct (Nat.leb (total_end c) (sh_fin (d_sh s))) eqn:EL; constructor; unfold waiter_ok, all_ops; simpl; auto; try (intros _; apply Io; discriminate).
      * left. apply Nat.leb_le. exact EL.
      * left. apply Nat.leb_gt. exact EL.
    + destruct (isErr (sh_stat (d_sh s))) eqn:EL; constructor; unfold waiter_ok, all_ops; simpl; auto; intros _; apply Io; discriminate.
    + constructor; unfold waiter_ok, all_ops; simpl; auto; intros _; apply Io; discriminate.
    + constructor; unfold waiter_ok, all_ops; simpl; auto. congruence.
  - eapply work_inv; [exact Hp|exact I|]. apply work_step with (1 := H).
  - apply pick_step in H. destruct H as [H1 [H2 [H3 [P _]]]]. destruct I as [Ip Iph Io Iw]. constructor; auto.
    + rewrite H1, H2, H3. assert (HR : RI c (d_sh s) (all_ops s) -> RI c (d_sh s) (all_ops s')) by (apply RI_perm; symmetry; exact P).
      assert (Hh : harmless (all_ops s) -> harmless (all_ops s')) by (apply harmless_perm; symmetry; exact P).
      unfold finished_ok in *. rewrite H1. destruct (d_main s); auto; try (destruct (d_out s)); intuition.
    + rewrite H2, H3. exact Io.
    + unfold waiter_ok, finished_ok in *. rewrite H1, H2. destruct (d_main s); auto; rewrite (sumf_perm f_ln _ _ P); exact Iw.
  - simpl in H. destruct I as [Ip Iph Io Iw]. destruct (d_main s) eqn:E; try discriminate. inversion H; subst; clear H.
    constructor; unfold waiter_ok, all_ops in *; rewrite E in *; simpl in *; auto. intros _; apply Io; discriminate.
Qed.

Lemma Inv_init : Inv (d_init c).
Proof.
  constructor; simpl; auto.
  - unfold all_ops; simpl. split; [intros o []|]. split; [split; [reflexivity|]|reflexivity]. intros e _; reflexivity.
  - exact I.
Qed.

(** Schedules in which run() is called as above. *)
Fixpoint disciplined (s : dst) (ls : list dlabel) : Prop :=
  match ls with
  | [] => True
  | l :: r => (l = LRun -> may_call s) /\ match dstep c s l with Some s' => disciplined s' r | None => True end
  end.

Lemma drun_inv : forall ls s s', Inv s -> disciplined s ls -> drun c s ls = Some s' -> Inv s'.
Proof.
  induction ls as [|l ls IH]; intros s s' I D H; simpl in H; [inversion H; subst; exact I|].
  destruct D as [D1 D2]. destruct (dstep c s l) as [s1|] eqn:E; [|discriminate].
  apply (IH s1); [eapply Inv_step; eassumption|exact D2|exact H].
Qed.
End Inv.
