(** Calls that come to their end, calls that do not, and crashes. *)
From Verif Require Export CoordProofs.
From Coq Require Import Lia.
Local Open Scope nat_scope.
Local Open Scope list_scope.

Definition quiet (s : cst) : Prop := forall j, c_pc s (ASec j) = QNone.
Lemma crun_app room a : forall b s, crun room s (a ++ b) = match crun room s a with Next s1 => crun room s1 b | o => o end.
Proof. induction a as [|x a IH]; intros b s; cbn [app crun]; [reflexivity|]. destruct (cstep room s x); auto. Qed.
(** Where the other actors are does not change. *)
Lemma step_pcs room s lb s' : cstep room s lb = Next s' ->
  match lb with CCall a _ | CStep a _ => forall b, b <> a -> c_pc s' b = c_pc s b | _ => c_pc s' = c_pc s end.
Proof.
  destruct lb as [a o|a fz|j|j|j]; cbn [cstep].
  - destruct (c_pc s a); try discriminate. destruct (match a with AMain _ => true | ASec j => match c_ph s j with STask => j <? c_next s | _ => false end end); [|discriminate]. injection 1 as <-. intros b N. apply updA_other, N.
  - intros H b N. assert (LK : forall p, some (lock s a p) = Next s' -> c_pc s' b = c_pc s b) by (intros p; unfold lock; destruct (c_mx s); [discriminate|]; injection 1 as <-; apply updA_other, N).
    assert (JN : forall j p, join s a j p = Next s' -> c_pc s' b = c_pc s b) by (intros j p; unfold join; destruct (actor_eq a (ASec j)); [discriminate|]; destruct (c_ph s j); try discriminate; injection 1 as <-; apply updA_other, N).
    destruct (c_pc s a) as [|n|n real|n [|k] l0|n|n [|j r] l0|n j todo l0|n l0|n [|j r] marked l0| |[|j r] l0|j todo l0]; try discriminate; eauto; injection H as <-; try (apply updA_other, N).
    + destruct (c_told s j); apply updA_other, N.
    + destruct (Z.of_nat (length (c_list s)) <? n)%Z; apply updA_other, N.
    + destruct (0 <? n - Z.of_nat (length marked))%Z; apply updA_other, N.
    + destruct (fz && negb (c_told s j)); apply updA_other, N.
  - destruct ((j <? c_next s) && negb (c_told s j)); [|discriminate]. destruct (c_ph s j); try discriminate. injection 1 as <-. reflexivity.
  - destruct (c_ph s j); try discriminate. destruct (c_pc s (ASec j)); try discriminate. injection 1 as <-. reflexivity.
  - destruct (c_told s j); [|discriminate]. destruct (c_ph s j); try discriminate. injection 1 as <-. reflexivity.
Qed.
Lemma step_none room s a fz s' : cstep room s (CStep a fz) = Next s' -> c_pc s a <> QNone.
Proof. cbn [cstep]. destruct (c_pc s a); discriminate. Qed.
Lemma step_quiet room s lb s' : (match lb with CCall (ASec _) _ => False | _ => True end) -> quiet s -> cstep room s lb = Next s' -> quiet s'.
Proof.
  intros L Q H j. pose proof (step_pcs room s lb s' H) as P. destruct lb as [a o|a fz|x|x|x]; try (rewrite P; apply Q).
  - destruct a as [u|y]; [|destruct L]. rewrite P by discriminate. apply Q.
  - destruct (actor_eq (ASec j) a) as [<-|N]; [exfalso; apply (step_none _ _ _ _ _ H), Q|]. rewrite P by congruence. apply Q.
Qed.
Lemma run_quiet room ls : forall s s', not_from_tasks ls -> quiet s -> crun room s ls = Next s' -> quiet s'.
Proof.
  induction ls as [|x r IH]; intros s s' N Q; cbn [crun]; [congruence|]. destruct (cstep room s x) as [s1| |] eqn:S; try discriminate.
  apply IH; [intros j o K; apply (N j o); right; exact K|]. eapply step_quiet; [|exact Q|exact S]. destruct x as [[u|j] o| | | |]; try exact I. exact (N j o (or_introl eq_refl)).
Qed.
Lemma step_alive room s lb : (match lb with CCall (ASec _) _ => False | _ => True end) -> quiet s -> cstep room s lb <> Dead.
Proof.
  intros L Q. destruct lb as [a o|a fz|j|j|j]; cbn [cstep].
  - destruct (c_pc s a); try discriminate. destruct (match a with AMain _ => true | ASec j => match c_ph s j with STask => j <? c_next s | _ => false end end); discriminate.
  - assert (LK : forall p, some (lock s a p) <> Dead) by (intros p; unfold lock; destruct (c_mx s); discriminate).
    assert (JN : forall j p, c_pc s a <> QNone -> join s a j p <> Dead).
    { intros j p N. unfold join. destruct (actor_eq a (ASec j)) as [->|X]; [exfalso; apply N, Q|]. destruct (c_ph s j); discriminate. }
    destruct (c_pc s a) as [|n|n real|n [|k] l0|n|n [|j r] l0|n j todo l0|n l0|n [|j r] marked l0| |[|j r] l0|j todo l0]; try discriminate; try apply LK; apply JN; discriminate.
  - destruct ((j <? c_next s) && negb (c_told s j)); [|discriminate]. destruct (c_ph s j); discriminate.
  - destruct (c_ph s j); try discriminate. destruct (c_pc s (ASec j)); discriminate.
  - destruct (c_told s j); [|discriminate]. destruct (c_ph s j); discriminate.
Qed.
Lemma run_alive room ls : forall s, not_from_tasks ls -> quiet s -> crun room s ls <> Dead.
Proof.
  induction ls as [|x r IH]; intros s N Q; cbn [crun]; [discriminate|].
  assert (L : match x with CCall (ASec _) _ => False | _ => True end) by (destruct x as [[u|j] o| | | |]; try exact I; exact (N j o (or_introl eq_refl))).
  pose proof (step_alive room s x L Q). destruct (cstep room s x) as [s1| |] eqn:S; try congruence.
  apply IH; [intros j o K; apply (N j o); right; exact K|]. eapply step_quiet; eauto.
Qed.

(** The owner of the mutex can come to the end of its call. *)
Definition ends (room : Z) (a : actor) (s : cst) : Prop :=
  exists ls s', Forall no_call ls /\ crun room s ls = Next s' /\ c_mx s' = None /\ c_pc s' a = QNone /\ forall b, b <> a -> c_pc s' b = c_pc s b.
Lemma ends_step room a s lb s1 : no_call lb -> (match lb with CStep b _ => b = a | CCall _ _ => False | _ => True end) -> cstep room s lb = Next s1 -> ends room a s1 -> ends room a s.
Proof.
  intros N B S (ls & s' & F & R & M & P & O). exists (lb :: ls), s'. split; [constructor; assumption|]. split; [cbn [crun]; rewrite S; exact R|]. split; [exact M|]. split; [exact P|].
  intros b X. rewrite O by exact X. pose proof (step_pcs room s lb s1 S) as K. destruct lb as [a0 o|a0 fz|j|j|j]; try (rewrite K; reflexivity); [destruct B|]. subst a0. apply K, X.
Qed.
Lemma ends_now room a s e : ends room a (leave_with s a e).
Proof. exists [], (leave_with s a e). split; [constructor|]. split; [reflexivity|]. split; [reflexivity|]. split; [apply updA_same|reflexivity]. Qed.
Lemma ends_mark room a n l0 : forall todo marked s, c_pc s a = QMark n todo marked l0 -> ends room a s.
Proof.
  induction todo as [|j r IH]; intros marked s P.
  - eapply (ends_step room a s (CStep a false)); [exact I|reflexivity|cbn [cstep]; rewrite P; reflexivity|apply ends_now].
  - eapply (ends_step room a s (CStep a false)); [exact I|reflexivity|cbn [cstep]; rewrite P; reflexivity|].
    destruct (0 <? n - Z.of_nat (length marked))%Z; [|apply ends_now]. apply (IH (marked ++ [j])). apply updA_same.
Qed.
Lemma ends_check room a n l0 s : c_pc s a = QCheck n l0 -> ends room a s.
Proof.
  intros P. eapply (ends_step room a s (CStep a false)); [exact I|reflexivity|cbn [cstep]; rewrite P; reflexivity|].
  destruct (Z.of_nat (length (c_list s)) <? n)%Z; [apply ends_now|]. apply (ends_mark room a n l0 (c_list s) []). apply updA_same.
Qed.
Lemma ends_make room a n l0 : forall k s, c_pc s a = QMake n k l0 -> ends room a s.
Proof.
  induction k as [|k IH]; intros s P.
  - eapply (ends_step room a s (CStep a false)); [exact I|reflexivity|cbn [cstep]; rewrite P; reflexivity|apply ends_now].
  - eapply (ends_step room a s (CStep a false)); [exact I|reflexivity|cbn [cstep]; rewrite P; reflexivity|]. apply IH. apply updA_same.
Qed.
(** Join: the thread was told to stop and is not inside such a call. *)
Lemma ends_join room a j p s : (forall s1, c_list s1 = c_list s -> c_pc s1 a = p -> (forall b, b <> a -> c_pc s1 b = c_pc s b) -> ends room a s1) ->
  (exists fz, forall s1, c_pc s1 a = c_pc s a -> cstep room s1 (CStep a fz) = join s1 a j p) ->
  a <> ASec j -> c_told s j = true -> c_pc s (ASec j) = QNone -> ends room a s.
Proof.
  intros K (fz & ST) N T Q.
  assert (E3 : forall s1, c_list s1 = c_list s -> c_pc s1 = c_pc s -> c_ph s1 j = SEnded -> ends room a s1).
  { intros s1 L P H. eapply (ends_step room a s1 (CStep a fz)); [exact I|reflexivity|rewrite ST by congruence; unfold join; destruct (actor_eq a (ASec j)); [congruence|]; rewrite H; reflexivity|].
    apply K; [exact L|apply updA_same|]. intros b X. cbn [to c_pc]. rewrite updA_other by exact X. congruence. }
  assert (E2 : forall s1, c_list s1 = c_list s -> c_pc s1 = c_pc s -> c_told s1 j = true -> c_ph s1 j = SLoop -> ends room a s1).
  { intros s1 L P TT H. eapply (ends_step room a s1 (CExit j)); [exact I|exact I|cbn [cstep]; rewrite TT, H; reflexivity|]. apply E3; [exact L|exact P|apply upd_same]. }
  destruct (c_ph s j) eqn:H; [apply E2; auto| |apply E3; auto].
  eapply (ends_step room a s (CFinish j)); [exact I|exact I|cbn [cstep]; rewrite H, Q; reflexivity|]. apply E2; auto. apply upd_same.
Qed.
Definition main (a : actor) : Prop := match a with AMain _ => True | ASec _ => False end.
Lemma main_not a j : main a -> a <> ASec j. Proof. intros M ->. exact M. Qed.
Lemma ends_sweep room a n l0 : main a -> forall todo s, quiet s -> c_pc s a = QSweep n todo l0 -> ends room a s.
Proof.
  intros M. induction todo as [|j r IH]; intros s Q P.
  - eapply (ends_step room a s (CStep a false)); [exact I|reflexivity|cbn [cstep]; rewrite P; reflexivity|]. apply (ends_check room a n l0). apply updA_same.
  - eapply (ends_step room a s (CStep a false)); [exact I|reflexivity|cbn [cstep]; rewrite P; reflexivity|].
    assert (QU : forall s1 p, c_pc s1 = updA (c_pc s) a p -> quiet s1) by (intros s1 p E x; rewrite E, updA_other; [apply Q|apply not_eq_sym, main_not, M]).
    destruct (c_told s j).
    + apply (ends_join room a j (QSweep n r l0)).
      * intros s1 _ P1 O. apply IH; [|exact P1]. intros x. rewrite O by (apply not_eq_sym, main_not, M). refine (QU _ (QJoin n j r l0) _ x). reflexivity.
      * exists false. intros s1 E. cbn [erase c_pc] in E. rewrite updA_same in E. cbn [cstep]. rewrite E. reflexivity.
      * apply main_not, M.
      * apply upd_same.
      * refine (QU _ (QJoin n j r l0) _ j). reflexivity.
    + apply IH; [apply (QU _ (QSweep n r l0)); reflexivity|apply updA_same].
Qed.
Lemma ends_freeze room a l0 : forall todo s, c_pc s a = QFreeze todo l0 -> ends room a s.
Proof.
  induction todo as [|j r IH]; intros s P.
  - eapply (ends_step room a s (CStep a false)); [exact I|reflexivity|cbn [cstep]; rewrite P; reflexivity|apply ends_now].
  - eapply (ends_step room a s (CStep a false)); [exact I|reflexivity|cbn [cstep]; rewrite P; reflexivity|]. apply IH. apply updA_same.
Qed.
Lemma ends_owner room a s : main a -> cinv s -> quiet s -> c_mx s = Some a -> ends room a s.
Proof.
  intros M V Q O. pose proof (proj2 (ci_own s V a) O) as I0. destruct (ci_hist s V) as (q & _ & _ & _ & _ & _ & MID). rewrite O in MID.
  destruct (c_pc s a) as [|n|n real|n k l0|n|n todo l0|n j todo l0|n l0|n todo marked l0| |todo l0|j todo l0] eqn:P; try discriminate I0.
  - exact (ends_make room a n l0 k s P).
  - exact (ends_sweep room a n l0 M todo s Q P).
  - cbn [midc] in MID. destruct MID as (_ & d & _ & _ & _ & T). apply (ends_join room a j (QSweep n todo l0)).
    + intros s1 _ P1 X. apply (ends_sweep room a n l0 M todo); [|exact P1]. intros x. rewrite X by (apply not_eq_sym, main_not, M). apply Q.
    + exists false. intros s1 E. cbn [cstep]. rewrite E, P. reflexivity.
    + apply main_not, M.
    + exact T.
    + apply Q.
  - exact (ends_check room a n l0 s P).
  - exact (ends_mark room a n l0 todo marked s P).
  - exact (ends_freeze room a l0 todo s P).
  - cbn [midc] in MID. destruct MID as (_ & T & _). apply (ends_join room a j (QFreeze todo l0)).
    + intros s1 _ P1 X. exact (ends_freeze room a l0 todo s1 P1).
    + exists false. intros s1 E. cbn [cstep]. rewrite E, P. reflexivity.
    + apply main_not, M.
    + exact T.
    + apply Q.
Qed.
(** ... and so can everybody else, one after the other. *)
Lemma lock_free s a p : c_mx s = None -> lock s a p = Some (mkC (c_list s) (c_next s) (c_told s) (c_ph s) (Some a) (updA (c_pc s) a p) (c_log s)).
Proof. unfold lock. intros ->. reflexivity. Qed.
Lemma ends_any room a s : main a -> cinv s -> quiet s -> c_mx s = None -> ends room a s.
Proof.
  intros M V Q O. assert (I0 : inside (c_pc s a) = false) by (destruct (inside (c_pc s a)) eqn:E; [apply (ci_own s V) in E; congruence|reflexivity]).
  assert (LAST : forall s1 p s2, cinv s1 -> quiet s1 -> c_mx s1 = None -> inside p = true -> cstep room s1 (CStep a false) = some (lock s1 a p) -> lock s1 a p = Some s2 -> ends room a s1).
  { intros s1 p s2 V1 Q1 O1 IP ST L. assert (S : cstep room s1 (CStep a false) = Next s2) by (rewrite ST, L; reflexivity).
    eapply (ends_step room a s1 (CStep a false)); [exact I|reflexivity|exact S|]. apply ends_owner; [exact M|exact (step_cinv _ _ _ _ V1 S)|exact (step_quiet _ _ (CStep a false) _ I Q1 S)|].
    unfold lock in L. rewrite O1 in L. injection L as <-. reflexivity. }
  destruct (c_pc s a) as [|n|n real|n k l0|n|n todo l0|n j todo l0|n l0|n todo marked l0| |todo l0|j todo l0] eqn:P; try discriminate I0.
  - exists [], s. split; [constructor|]. split; [reflexivity|]. auto.
  - set (s1 := to s a (QCLock n (Z.min n (room - Z.of_nat (length (c_list s)))))).
    assert (S : cstep room s (CStep a false) = Next s1) by (cbn [cstep]; rewrite P; reflexivity).
    eapply (ends_step room a s (CStep a false)); [exact I|reflexivity|exact S|].
    eapply LAST; [exact (step_cinv _ _ _ _ V S)|exact (step_quiet _ _ (CStep a false) _ I Q S)|exact O| |cbn [cstep]; unfold s1 at 1; cbn [to c_pc]; rewrite updA_same; reflexivity|apply lock_free; exact O]. reflexivity.
  - eapply LAST; [exact V|exact Q|exact O| |cbn [cstep]; rewrite P; reflexivity|apply lock_free; exact O]. reflexivity.
  - eapply LAST; [exact V|exact Q|exact O| |cbn [cstep]; rewrite P; reflexivity|apply lock_free; exact O]. reflexivity.
  - eapply LAST; [exact V|exact Q|exact O| |cbn [cstep]; rewrite P; reflexivity|apply lock_free; exact O]. reflexivity.
Qed.
Lemma no_call_quiet room ls s s' : Forall no_call ls -> quiet s -> crun room s ls = Next s' -> quiet s'.
Proof. intros F. apply run_quiet. intros j o K. rewrite Forall_forall in F. exact (F _ K). Qed.
Lemma drain_list room acts : forall s, cinv s -> quiet s -> c_mx s = None -> (forall a, c_pc s a <> QNone -> In a acts) ->
  exists ls s', Forall no_call ls /\ crun room s ls = Next s' /\ forall a, c_pc s' a = QNone.
Proof.
  induction acts as [|a acts IH]; intros s V Q O A.
  - exists [], s. split; [constructor|]. split; [reflexivity|]. intros a. destruct (c_pc s a) eqn:P; try reflexivity; exfalso; apply (A a); rewrite P; discriminate.
  - assert (E : ends room a s).
    { destruct a as [u|j]; [apply ends_any; auto; exact I|]. exists [], s. split; [constructor|]. split; [reflexivity|]. split; [exact O|]. split; [apply Q|reflexivity]. }
    destruct E as (ls & s1 & F & R & M & P & OT).
    destruct (IH s1) as (ls2 & s2 & F2 & R2 & Z).
    + exact (run_cinv _ _ _ _ V R).
    + exact (no_call_quiet _ _ _ _ F Q R).
    + exact M.
    + intros b N. destruct (actor_eq b a) as [->|X]; [congruence|]. rewrite OT in N by exact X. destruct (A b N) as [K|K]; [congruence|exact K].
    + exists (ls ++ ls2), s2. split; [apply Forall_app; auto|]. split; [rewrite crun_app, R; exact R2|exact Z].
Qed.
Lemma active_finite room ls : forall s s' acts, crun room s ls = Next s' -> (forall a, c_pc s a <> QNone -> In a acts) ->
  exists acts', forall a, c_pc s' a <> QNone -> In a acts'.
Proof.
  induction ls as [|x r IH]; intros s s' acts; cbn [crun]; [injection 1 as <-; eauto|]. destruct (cstep room s x) as [s1| |] eqn:S; try discriminate. intros R A.
  pose proof (step_pcs room s x s1 S) as P. destruct x as [a o|a fz|j|j|j].
  - apply (IH s1 s' (a :: acts) R). intros b N. destruct (actor_eq b a) as [->|X]; [left; reflexivity|]. right. apply A. rewrite <- P by exact X. exact N.
  - apply (IH s1 s' (a :: acts) R). intros b N. destruct (actor_eq b a) as [->|X]; [left; reflexivity|]. right. apply A. rewrite <- P by exact X. exact N.
  - apply (IH s1 s' acts R). rewrite P. exact A.
  - apply (IH s1 s' acts R). rewrite P. exact A.
  - apply (IH s1 s' acts R). rewrite P. exact A.
Qed.
Lemma drain_all room s : cinv s -> quiet s -> (exists acts, forall a, c_pc s a <> QNone -> In a acts) ->
  exists ls s', Forall no_call ls /\ crun room s ls = Next s' /\ forall a, c_pc s' a = QNone.
Proof.
  intros V Q (acts & A). destruct (c_mx s) as [a|] eqn:O; [|apply (drain_list room acts s V Q O A)].
  assert (M : main a). { destruct a as [u|j]; [exact I|]. pose proof (proj2 (ci_own s V (ASec j)) O) as K. rewrite Q in K. discriminate K. }
  destruct (ends_owner room a s M V Q O) as (ls & s1 & F & R & M1 & P & OT).
  destruct (drain_list room acts s1) as (ls2 & s2 & F2 & R2 & Z).
  - exact (run_cinv _ _ _ _ V R).
  - exact (no_call_quiet _ _ _ _ F Q R).
  - exact M1.
  - intros b N. destruct (actor_eq b a) as [->|X]; [congruence|]. rewrite OT in N by exact X. auto.
  - exists (ls ++ ls2), s2. split; [apply Forall_app; auto|]. split; [rewrite crun_app, R; exact R2|exact Z].
Qed.

(** Two threads that wait for each other: [a] joins [j], which waits for the mutex that [a] holds. *)
Definition waits_lock (p : cpc) : Prop := match p with QCLock _ _ | QRLock _ | QFLock => True | _ => False end.
Definition joins (p : cpc) (j : nat) : Prop := match p with QJoin _ i _ _ => i = j | QFJoin i _ _ => i = j | _ => False end.
Definition stuck (s : cst) (a : actor) (j : nat) : Prop := c_mx s = Some a /\ joins (c_pc s a) j /\ a <> ASec j /\ waits_lock (c_pc s (ASec j)) /\ c_ph s j = STask.
Lemma stuck_step room s lb s' a j : cinv s -> stuck s a j -> cstep room s lb = Next s' -> stuck s' a j /\ c_pc s' a = c_pc s a /\ c_pc s' (ASec j) = c_pc s (ASec j).
Proof.
  intros V (M & J & N & W & H) S.
  assert (KEEP : c_mx s' = c_mx s -> c_pc s' a = c_pc s a -> c_pc s' (ASec j) = c_pc s (ASec j) -> c_ph s' j = STask -> stuck s' a j /\ c_pc s' a = c_pc s a /\ c_pc s' (ASec j) = c_pc s (ASec j)).
  { intros A B C D. split; [|auto]. unfold stuck. rewrite A, B, C. auto. }
  destruct lb as [b o|b fz|i|i|i].
  - pose proof (step_pcs room s _ s' S) as P. cbn [cstep] in S. destruct (c_pc s b) eqn:PB; try discriminate. destruct (match b with AMain _ => true | ASec j0 => match c_ph s j0 with STask => j0 <? c_next s | _ => false end end); [|discriminate]. injection S as <-.
    apply KEEP; [reflexivity| | |exact H]; apply P; intros <-; [rewrite PB in J; exact J|rewrite PB in W; exact W].
  - pose proof (step_pcs room s _ s' S) as P.
    destruct (actor_eq b a) as [->|NA].
    { exfalso. cbn [cstep] in S. destruct (c_pc s a); try (exact J); cbn [joins] in J; subst; unfold join in S; destruct (actor_eq a (ASec j)); try congruence; rewrite H in S; discriminate. }
    destruct (actor_eq b (ASec j)) as [->|NJ].
    { exfalso. cbn [cstep] in S. destruct (c_pc s (ASec j)); try (exact W); unfold lock in S; rewrite M in S; discriminate. }
    assert (IB : inside (c_pc s b) = false) by (destruct (inside (c_pc s b)) eqn:E; [apply (ci_own s V) in E; congruence|reflexivity]).
    assert (SAME : c_mx s' = c_mx s /\ c_ph s' = c_ph s).
    { cbn [cstep] in S. destruct (c_pc s b); try discriminate IB; try discriminate S; try (unfold lock in S; rewrite M in S; discriminate). injection S as <-. auto. }
    destruct SAME as [A B]. apply KEEP; [exact A|apply P; congruence|apply P; congruence|congruence].
  - cbn [cstep] in S. destruct ((i <? c_next s) && negb (c_told s i)); [|discriminate]. destruct (c_ph s i) eqn:PI; try discriminate. injection S as <-. apply KEEP; try reflexivity. cbn [c_ph]. rewrite upd_other; [exact H|congruence].
  - cbn [cstep] in S. destruct (c_ph s i) eqn:PI; try discriminate. destruct (c_pc s (ASec i)) eqn:PC; try discriminate. injection S as <-. apply KEEP; try reflexivity. cbn [c_ph]. rewrite upd_other; [exact H|].
    intros <-. rewrite PC in W. exact W.
  - cbn [cstep] in S. destruct (c_told s i); [|discriminate]. destruct (c_ph s i) eqn:PI; try discriminate. injection S as <-. apply KEEP; try reflexivity. cbn [c_ph]. rewrite upd_other; [exact H|congruence].
Qed.
Lemma stuck_run room ls : forall s s' a j, cinv s -> stuck s a j -> crun room s ls = Next s' -> c_pc s' a = c_pc s a /\ c_pc s' (ASec j) = c_pc s (ASec j).
Proof.
  induction ls as [|x r IH]; intros s s' a j V K; cbn [crun]; [injection 1 as <-; auto|]. destruct (cstep room s x) as [s1| |] eqn:S; try discriminate. intros R.
  destruct (stuck_step room s x s1 a j V K S) as (K1 & A & B). destruct (IH s1 s' a j (step_cinv _ _ _ _ V S) K1 R) as [C D]. split; congruence.
Qed.

(** A creation that nobody disturbs. *)
Lemma make_loop room a n l0 : forall k s, c_pc s a = QMake n k l0 -> exists s', crun room s (repeat (CStep a false) (S k)) = Next s' /\ c_list s' = c_list s ++ seq (c_next s) k /\ c_told s' = c_told s /\ c_mx s' = None.
Proof.
  induction k as [|k IH]; intros s P.
  - exists (leave_with s a [ECre a n l0 (c_list s)]). cbn [repeat crun cstep]. rewrite P. split; [reflexivity|]. cbn. rewrite app_nil_r. auto.
  - set (s1 := mkC (c_list s ++ [c_next s]) (S (c_next s)) (c_told s) (c_ph s) (c_mx s) (updA (c_pc s) a (QMake n k l0)) (c_log s)).
    destruct (IH s1) as (s' & R & L & T & M); [apply updA_same|]. exists s'. split.
    + change (repeat (CStep a false) (S (S k))) with (CStep a false :: repeat (CStep a false) (S k)). change (crun room s (CStep a false :: repeat (CStep a false) (S k))) with (match cstep room s (CStep a false) with Next s2 => crun room s2 (repeat (CStep a false) (S k)) | o => o end).
      cbn [cstep]. rewrite P. exact R.
    + cbn [s1 c_list c_next c_told] in L, T. rewrite <- app_assoc in L. cbn [seq]. auto.
Qed.
Lemma create_solo room a n s : main a -> c_mx s = None -> c_pc s a = QNone ->
  exists ls s', crun room s (CCall a (OCreate n) :: ls) = Next s' /\ (forall lb, In lb ls -> lb = CStep a false) /\
    c_list s' = c_list s ++ seq (c_next s) (Z.to_nat (Z.min n (room - Z.of_nat (length (c_list s))))) /\ c_told s' = c_told s /\ c_mx s' = None.
Proof.
  intros MA M P. set (k := Z.to_nat (Z.min n (room - Z.of_nat (length (c_list s))))).
  set (s3 := mkC (c_list s) (c_next s) (c_told s) (c_ph s) (Some a) (updA (updA (updA (c_pc s) a (QSize n)) a (QCLock n (Z.min n (room - Z.of_nat (length (c_list s)))))) a (QMake n k (c_list s))) (c_log s)).
  destruct (make_loop room a n (c_list s) k s3) as (s' & R & L & T & MX); [apply updA_same|].
  exists (CStep a false :: CStep a false :: repeat (CStep a false) (S k)), s'. split.
  - destruct a as [u|]; [|destruct MA].
    change (match cstep room s (CCall (AMain u) (OCreate n)) with Next s1 => crun room s1 (CStep (AMain u) false :: CStep (AMain u) false :: repeat (CStep (AMain u) false) (S k)) | o => o end = Next s').
    cbn [cstep]. rewrite P.
    change (match cstep room (to s (AMain u) (QSize n)) (CStep (AMain u) false) with Next s1 => crun room s1 (CStep (AMain u) false :: repeat (CStep (AMain u) false) (S k)) | o => o end = Next s').
    cbn [cstep]. cbn [to c_pc]. rewrite updA_same. cbn [c_list c_next c_told c_ph c_mx c_log].
    match goal with |- crun room ?x (?y :: ?z) = _ => change (match cstep room x y with Next s1 => crun room s1 z | o => o end = Next s') end.
    cbn [cstep to c_pc]. rewrite updA_same. unfold lock. cbn [to c_mx c_list]. rewrite M. cbn [some]. exact R.
  - split.
    + intros lb [<-|[<-|I]]; [reflexivity|reflexivity|]. apply repeat_spec in I. exact I.
    + cbn [s3 c_list c_next c_told] in L, T. auto.
Qed.
