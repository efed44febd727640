(** Property theorems on cancel, suspend and resume. *)
From Verif Require Import StateSpec StateProofs.
Local Open Scope nat_scope.
Local Open Scope list_scope.

(** * C34 *)
(** No iteration of any element begins between a completed cancel (or suspend) and the next request or the next run. *)
Theorem C34_no_start_after_cancel : forall n lp ls s, k_run (k_new n lp) ls = Some s ->
  forall a e b, k_log s = a ++ KStart e :: b -> last_ret Cancelled b = false /\ last_ret Suspended b = false.
Proof.
  intros n lp ls s E a e b L. pose proof (ki_log _ (proj1 (reach_inv _ _ _ _ E))) as H. rewrite L in H. clear L E. induction a as [|x a IH]; cbn in H; [easy|]. apply IH. destruct x; easy.
Qed.
Lemma engine_done_fin s : engine_done s = true -> forall e, e < k_n s -> idle_pc (k_pc s e) = true.
Proof.
  intros D e He. unfold engine_done in D. apply orb_prop in D. assert (In e (seq 0 (k_n s))) by (apply in_seq; lia). destruct D as [D|D].
  - rewrite forallb_forall in D. specialize (D e H). destruct (k_pc s e); easy.
  - apply andb_prop in D. destruct D as [_ D]. rewrite forallb_forall in D. auto.
Qed.
Lemma end_event n lp ls s a ok b : k_run (k_new n lp) ls = Some s -> k_log s = a ++ KEnd ok :: b ->
  exists s1, kinv s1 /\ k_n s1 = n /\ k_loop s1 = lp /\ k_log s1 = b /\ in_run (k_main s1) = true /\ engine_done s1 = true /\ ok = all_ok s1.
Proof.
  intros E L. destruct (event_step _ _ _ _ _ _ E L) as (l1 & l & l2 & s1 & s2 & Q1 & Q2 & Q3 & Q4 & Q5 & Q6); [cbn; lia|easy|]. destruct (reach_inv _ _ _ _ Q2) as (I1 & _ & I3 & I4). exists s1. do 4 (split; [easy|]).
  assert (G : forall t lg, k_log t = lg -> lg <> KEnd ok :: k_log s1 -> s2 <> t) by (intros t lg T X ->; rewrite Q5, <- Q4 in T; congruence).
  assert (ND : forall (x : kev) h, h <> x :: h) by (intros x h X; apply (f_equal (@length _)) in X; cbn in X; lia).
  destruct l; cbn [k_step] in Q3.
  - exfalso. destruct (k_ctl s1); try discriminate. destruct (estate_eqb _ _); injection Q3 as Q3; apply (f_equal k_log) in Q3; rewrite Q5, <- Q4 in Q3; cbn in Q3; injection Q3; intros; discriminate.
  - exfalso. destruct (k_ctl s1) as [|x [|e r]|x [|e r]]; try discriminate; injection Q3 as Q3; apply (f_equal k_log) in Q3; rewrite Q5, <- Q4 in Q3; cbn in Q3; try (injection Q3; intros; discriminate); now apply ND in Q3.
  - exfalso. destruct (k_main s1); try discriminate; injection Q3 as Q3; apply (f_equal k_log) in Q3; rewrite Q5, <- Q4 in Q3; cbn in Q3; now apply ND in Q3.
  - exfalso. destruct (k_main s1); try discriminate; injection Q3 as Q3; apply (f_equal k_log) in Q3; rewrite Q5, <- Q4 in Q3; cbn in Q3; now apply ND in Q3.
  - destruct (k_main s1) as [|k o|o|o]; try discriminate.
    + exfalso. destruct k; [|destruct (o && _)%bool]; injection Q3 as Q3; apply (f_equal k_log) in Q3; rewrite Q5, <- Q4 in Q3; cbn in Q3; try (injection Q3; intros; discriminate); now apply ND in Q3.
    + exfalso. destruct (k_ctl s1); try discriminate. injection Q3 as Q3; apply (f_equal k_log) in Q3; rewrite Q5, <- Q4 in Q3; cbn in Q3. injection Q3; intros; discriminate.
    + destruct (engine_done s1); [|discriminate]. injection Q3 as Q3. apply (f_equal k_log) in Q3; rewrite Q5, <- Q4 in Q3; cbn in Q3. injection Q3 as ->. easy.
  - exfalso. destruct (_ && _)%bool; [|discriminate]. destruct (k_pc s1 e); repeat match goal with H : context [if ?c then _ else _] |- _ => destruct c end; try discriminate; injection Q3 as Q3; apply (f_equal k_log) in Q3; rewrite Q5, <- Q4 in Q3; cbn in Q3; try (injection Q3; intros; discriminate); now apply ND in Q3.
Qed.
(** Every run, cancelled or not, returns OK exactly if no element failed in it. *)
Theorem C34_result : forall n lp ls s, k_run (k_new n lp) ls = Some s -> forall a ok b, k_log s = a ++ KEnd ok :: b -> (ok = true <-> ~ fails (this_run b)).
Proof.
  intros n lp ls s E a ok b L. destruct (end_event _ _ _ _ _ _ _ E L) as (s1 & I & N & LP & LB & R & D & O). pose proof (ki_bad _ I R) as B. rewrite LB in B. rewrite O. unfold all_ok. rewrite forallb_forall. split.
  - intros H (e & F). apply B in F. destruct F as [F1 F2]. specialize (H e ltac:(apply in_seq; lia)). pose proof (engine_done_fin _ D e F1) as X. destruct (k_pc s1 e) as [| | | | | | | |[]]; easy.
  - intros H e He. apply in_seq in He. destruct (failed (k_pc s1 e)) eqn:F; [|easy]. exfalso. apply H. exists e. apply B. split; [lia|]. destruct (k_pc s1 e) as [| | | | | | | |[]]; easy.
Qed.
(** A run during which nothing is requested executes every element as often as configured if it returns OK, and nothing is skipped in it, whatever happened in earlier runs. *)
Theorem C34_next_run_is_normal : forall n lp ls s, k_run (k_new n lp) ls = Some s -> forall a ok b, k_log s = a ++ KEnd ok :: b -> existsb is_req (this_run b) = false ->
  (forall e, ~ In (KSkip e) (this_run b)) /\ (ok = true -> forall e, e < n -> starts e (this_run b) = lp e).
Proof.
  intros n lp ls s E a ok b L Q. destruct (end_event _ _ _ _ _ _ _ E L) as (s1 & I & N & LP & LB & R & D & O). rewrite <- LB in *. assert (S : forall e, ~ In (KSkip e) (this_run (k_log s1))) by (intros e H; rewrite (ki_skip _ I e R H) in Q; discriminate).
  split; [easy|]. intros -> e He. rewrite <- N in He. pose proof (ki_fin _ I e He R) as F. rewrite LP in F.
  unfold engine_done in D. symmetry in O. unfold all_ok in O. rewrite forallb_forall in O. assert (IE : In e (seq 0 (k_n s1))) by (apply in_seq; lia).
  assert (FN : fin (k_pc s1 e) = true).
  { apply orb_prop in D. destruct D as [D|D]; [rewrite forallb_forall in D; auto|]. apply andb_prop in D. destruct D as [D _]. apply existsb_exists in D. destruct D as (x & D1 & D2). specialize (O x D1). rewrite D2 in O. discriminate. }
  specialize (O e IE). destruct (k_pc s1 e) as [| | | | | | | |[]] eqn:P; try discriminate. destruct (F eq_refl) as [X|X]; [now apply S in X|easy].
Qed.
(** Once cancel has completed in a run in which suspend was not called, the run ends: as long as no isHold asks for a repetition, at most five steps for each element remain,
    and some step is possible until the engine is done. *)
Theorem C34_cancelled_run_ends : forall n lp ls s, k_run (k_new n lp) ls = Some s -> in_run (k_main s) = true -> last_ret Cancelled (k_log s) = true -> existsb is_susp (this_run (k_log s)) = false ->
  forall m s', hf_run s m s' -> m <= 5 * n /\ (engine_done s' = true \/ exists s'', hf_run s' 1 s'').
Proof.
  intros n lp ls s E R C S m s' H. destruct (reach_inv _ _ _ _ E) as (I1 & I2 & I3 & I4). destruct (I2 R S) as (J1 & J2 & J3). destruct (ki_can _ I1 _ C) as [C1 C2]. pose proof (ki_push _ I1) as P. rewrite C1, C2 in P. cbn in P.
  destruct (hf_facts s m s' H P R (fun e He => proj2 (J3 e He))) as [F1 F2]. split; [|easy]. pose proof (sum_left_le (k_pc s) (k_n s)). rewrite I3 in *. lia.
Qed.
(** After a cancel, process begins no further run. *)
Theorem C34_process_stops : forall n lp ls s k ok, k_run (k_new n lp) ls = Some s -> k_main s = MTest k ok -> last_ret Cancelled (k_log s) = true ->
  exists s', k_step s LMain = Some s' /\ k_main s' = MOut /\ k_log s' = KDone :: k_log s.
Proof.
  intros n lp ls s k ok E M C. destruct (reach_inv _ _ _ _ E) as (I1 & _). destruct (ki_can _ I1 _ C) as [C1 C2]. cbn [k_step]. rewrite M, C2. cbn [estate_eqb negb]. rewrite andb_false_r. destruct k; eexists; (split; [reflexivity|easy]).
Qed.
(** Two elements of two iterations each, cancelled in the first iteration of the first; the second never runs; the next run is complete. *)
Definition run2 e := [LElem e true false; LElem e true false; LElem e true false; LElem e true false; LElem e false false].
Definition again e := [LElem e true false; LElem e true false; LElem e true false; LElem e false false].
Definition sched_cancel := [LProcess 3; LMain; LMain; LElem 0 true false; LElem 0 true false; LCall Cancelled; LCtl; LCtl; LCtl; LCtl; LCtl].
Definition sched_cancel_end := sched_cancel ++ [LElem 0 true false; LElem 0 true false; LElem 0 false false; LElem 0 true false; LElem 1 true false; LElem 1 true false; LMain].
Definition sched_next := [LMain; LRun; LMain] ++ run2 0 ++ again 0 ++ [LElem 0 true false] ++ run2 1 ++ again 1 ++ [LElem 1 true false; LMain].
Definition two (_ : nat) := 2.
Definition get (o : option kst) : kst := match o with Some s => s | None => k_new 0 (fun _ => 0) end.
Example C34_no_start_after_cancel_ex : exists s, k_run (k_new 2 two) sched_cancel_end = Some s /\ k_log s = [KEnd true; KSkip 1; KSkip 0; KRet Cancelled; KReq Cancelled; KStart 0; KBegin].
Proof. eexists. split; [vm_compute; reflexivity|easy]. Qed.
Example C34_result_ex : exists s a b, k_run (k_new 2 two) sched_cancel_end = Some s /\ k_log s = a ++ KEnd true :: b.
Proof. eexists. exists [], [KSkip 1; KSkip 0; KRet Cancelled; KReq Cancelled; KStart 0; KBegin]. split; [vm_compute; reflexivity|easy]. Qed.
Example C34_next_run_is_normal_ex : exists s a b, k_run (k_new 2 two) (sched_cancel_end ++ sched_next) = Some s /\ k_log s = a ++ KEnd true :: b /\ existsb is_req (this_run b) = false /\ this_run b = [KStart 1; KStart 1; KStart 0; KStart 0].
Proof. eexists. exists []. eexists. split; [vm_compute; reflexivity|]. split; [reflexivity|]. split; reflexivity. Qed.
Example C34_cancelled_run_ends_ex : exists s m s', k_run (k_new 2 two) sched_cancel = Some s /\ in_run (k_main s) = true /\ last_ret Cancelled (k_log s) = true /\ existsb is_susp (this_run (k_log s)) = false /\ hf_run s m s' /\ m = 6 /\ engine_done s' = true.
Proof.
  eexists. exists 6. eexists. split; [vm_compute; reflexivity|]. split; [easy|]. split; [easy|]. split; [easy|]. split; [|split; [reflexivity|]].
  - eapply (hf_cons _ (LElem 0 true false)); [intros i ok H; discriminate H|vm_compute; reflexivity|].
    eapply (hf_cons _ (LElem 0 true false)); [intros i ok H; discriminate H|vm_compute; reflexivity|].
    eapply (hf_cons _ (LElem 0 false false)); [intros i ok H; reflexivity|vm_compute; reflexivity|].
    eapply (hf_cons _ (LElem 0 true false)); [intros i ok H; discriminate H|vm_compute; reflexivity|].
    eapply (hf_cons _ (LElem 1 true false)); [intros i ok H; discriminate H|vm_compute; reflexivity|].
    eapply (hf_cons _ (LElem 1 true false)); [intros i ok H; discriminate H|vm_compute; reflexivity|]. apply hf_nil.
  - vm_compute. reflexivity.
Qed.
Example C34_process_stops_ex : exists s, k_run (k_new 2 two) sched_cancel_end = Some s /\ k_main s = MTest 2 true /\ last_ret Cancelled (k_log s) = true.
Proof. eexists. split; [vm_compute; reflexivity|easy]. Qed.

(** * C35 *)
(** Suspend can lose work: an element that comes to its loop condition while the pipeline is suspended gives up its remaining iterations; after resume the run ends OK. *)
Theorem C35_suspend_loses_work_refuted : exists n lp ls s b e, k_run (k_new n lp) ls = Some s /\ k_log s = KEnd true :: b /\ e < n /\ In (KRet Suspended) (this_run b) /\ last_ret Normal b = true /\ starts e (this_run b) = 0 /\ lp e = 1.
Proof.
  exists 2, (fun _ => 1), ([LRun; LMain; LElem 0 true false; LElem 0 true false; LCall Suspended; LCtl; LCtl; LCtl; LElem 1 true false; LElem 1 true false; LElem 0 true false; LElem 0 true false; LElem 0 true false; LElem 0 true false;
     LCall Normal; LCtl; LCtl; LCtl; LCtl; LCtl; LElem 0 true false; LElem 0 true false; LElem 0 false false; LElem 0 true false; LMain]).
  eexists. eexists. exists 1. split; [vm_compute; reflexivity|]. split; [reflexivity|]. split; [lia|]. split; [cbn; tauto|]. split; [reflexivity|]. split; reflexivity.
Qed.
(** The wake-up can be lost: resume stores and notifies between the waiter's test of its predicate and its wait. It then sleeps for ever although the resume has returned, and
    further calls of resume do not help, because the pipeline already counts as running. *)
Theorem C35_lost_wakeup_refuted : exists n lp ls s, k_run (k_new n lp) ls = Some s /\ in_run (k_main s) = true /\ last_ret Normal (k_log s) = true /\
  forall ls' s', k_run s ls' = Some s' -> Forall (no_spurious 0) ls' -> Forall only_resume ls' -> in_run (k_main s') = true /\ engine_done s' = false.
Proof.
  exists 1, (fun _ => 1), [LRun; LMain; LElem 0 true false; LElem 0 true false; LCall Suspended; LCtl; LCtl; LElem 0 true false; LElem 0 true false; LElem 0 true false; LCall Normal; LCtl; LCtl; LCtl; LElem 0 true false].
  eexists. split; [vm_compute; reflexivity|]. split; [reflexivity|]. split; [reflexivity|].
  assert (G : forall ls' s s', k_n s = 1 -> in_run (k_main s) = true -> k_repo s = Normal -> k_ctl s = CIdle -> k_pc s 0 = ESleep 1 true false -> k_run s ls' = Some s' -> Forall (no_spurious 0) ls' -> Forall only_resume ls' -> in_run (k_main s') = true /\ engine_done s' = false).
  { induction ls' as [|l r IH]; intros s s' N R RE C P E F1 F2; cbn [k_run] in E.
    - injection E as <-. split; [easy|]. unfold engine_done. rewrite N. cbn. now rewrite P.
    - destruct (k_step s l) as [s1|] eqn:E1; [|discriminate]. inversion F1 as [|? ? F3 F4]; inversion F2 as [|? ? F5 F6]; subst.
      enough (Z : k_n s1 = 1 /\ in_run (k_main s1) = true /\ k_repo s1 = Normal /\ k_ctl s1 = CIdle /\ k_pc s1 0 = ESleep 1 true false) by (destruct Z as (Z1 & Z2 & Z3 & Z4 & Z5); eapply (IH s1); eauto).
      clear IH E. destruct l; cbn [k_step] in E1.
      + cbn in F5. subst x. rewrite C, RE in E1. cbn in E1. injection E1 as <-. easy.
      + rewrite C in E1. discriminate.
      + destruct (k_main s); discriminate.
      + destruct (k_main s); discriminate.
      + destruct (k_main s); try discriminate. unfold engine_done in E1. rewrite N in E1. cbn in E1. rewrite P in E1. cbn in E1. discriminate.
      + rewrite N, R in E1. destruct (Nat.ltb_spec e 1) as [L|]; [|discriminate]. assert (e = 0) by lia. subst e. rewrite (F3 eq_refl), P in E1. discriminate. }
  intros ls' s' E F1 F2. eapply G; [..|exact E|exact F1|exact F2]; reflexivity.
Qed.
(** What holds of every run that ends OK, however often it was suspended, resumed and cancelled: no element executes more iterations than configured, and each one that did not give up
    its iterations because it met a request at its loop condition executed exactly as many. *)
Theorem C35_all_or_skipped_partial : forall n lp ls s, k_run (k_new n lp) ls = Some s -> forall a ok b, k_log s = a ++ KEnd ok :: b -> forall e, e < n ->
  starts e (this_run b) <= lp e /\ (ok = true -> ~ In (KSkip e) (this_run b) -> starts e (this_run b) = lp e).
Proof.
  intros n lp ls s E a ok b L e He. destruct (end_event _ _ _ _ _ _ _ E L) as (s1 & I & N & LP & LB & R & D & O). rewrite <- LB, <- LP in *. rewrite <- N in He. split; [now apply (ki_le _ I)|]. intros -> S.
  symmetry in O. unfold all_ok in O. rewrite forallb_forall in O. assert (IE : In e (seq 0 (k_n s1))) by (apply in_seq; lia).
  assert (FN : fin (k_pc s1 e) = true).
  { unfold engine_done in D. apply orb_prop in D. destruct D as [D|D]; [rewrite forallb_forall in D; auto|]. apply andb_prop in D. destruct D as [D _]. apply existsb_exists in D. destruct D as (x & D1 & D2). specialize (O x D1). rewrite D2 in O. discriminate. }
  specialize (O e IE). destruct (k_pc s1 e) as [| | | | | | | |[]] eqn:P; try discriminate. destruct (ki_fin _ I e He R P) as [X|X]; easy.
Qed.
(** An element that is waiting, not yet notified, when resume or cancel is called has been notified when the call returns (unless it woke for no reason in between). *)
Theorem C35_resume_wakes_partial : forall n lp ls s e i ok x s1 ls' s2, k_run (k_new n lp) ls = Some s -> e < n -> k_pc s e = ESleep i ok false -> k_repo s <> x -> x <> Suspended -> k_step s (LCall x) = Some s1 ->
  k_run s1 ls' = Some s2 -> Forall (no_spurious e) ls' -> (forall y, ~ In (LCall y) ls') -> k_ctl s2 = CIdle -> forall i' ok', k_pc s2 e <> ESleep i' ok' false.
Proof.
  intros n lp ls s e i ok x s1 ls' s2 E He P RX X S RU NS NC CI.
  assert (N : k_n s = n) by apply (reach_inv _ _ _ _ E).
  set (inv := fun t => k_n t = n /\ (((exists r, (k_ctl t = CStore x r \/ exists e', e' <> e /\ k_ctl t = CNote x (e' :: r)) /\ In e r) /\ k_pc t e = ESleep i ok false) \/ ((exists r, k_ctl t = CNote x (e :: r)) /\ k_pc t e = ESleep i ok false /\ k_st t e = x) \/
     (k_st t e <> Suspended /\ ctl_not Suspended (k_ctl t) /\ (match k_pc t e with EFall _ _ | ESleep _ _ false => False | _ => True end)))).
  assert (ND : forall t, k_n t = n -> k_pc t e = ESleep i ok false -> engine_done t = false).
  { intros t T Q. unfold engine_done. rewrite T. assert (IE : In e (seq 0 n)) by (apply in_seq; lia). apply orb_false_intro.
    - destruct (forallb _ _) eqn:F; [|easy]. rewrite forallb_forall in F. specialize (F e IE). cbn in F. now rewrite Q in F.
    - apply andb_false_intro2. destruct (forallb _ _) eqn:F; [|easy]. rewrite forallb_forall in F. specialize (F e IE). cbn in F. now rewrite Q in F. }
  assert (ST : forall t l t', inv t -> k_step t l = Some t' -> no_spurious e l -> (forall y, l <> LCall y) -> inv t').
  { intros t l t' (T & D) E1 F1 F2. destruct l; cbn [k_step] in E1.
    - now destruct (F2 x0).
    - destruct D as [((r & [D1|(e' & D0 & D1)] & D2) & D3)|[((r & D1) & D2 & D3)|(D1 & D2 & D3)]].
      + rewrite D1 in E1. destruct r as [|e' r]; [easy|]. injection E1 as <-. split; [easy|]. assert (XS : estate_eqb x Suspended = false) by now apply estate_eqb_neq. rewrite XS. destruct (Nat.eq_dec e' e) as [->|NE].
        * right; left. cbn. split; [now exists r|]. split; [easy|]. unfold upd. now rewrite Nat.eqb_refl.
        * left. cbn. split; [|easy]. exists r. split; [right; now exists e'|]. destruct D2; [congruence|easy].
      + rewrite D1 in E1. injection E1 as <-. split; [easy|]. left. cbn [k_ctl k_pc]. split; [exists r; split; [now left|easy]|]. destruct (k_pc t e') eqn:Q; try easy. unfold upd. destruct (Nat.eqb_spec e e'); [congruence|easy].
      + rewrite D1 in E1. injection E1 as <-. split; [easy|]. right; right. cbn [k_ctl k_pc k_st]. split; [congruence|]. split; [easy|]. rewrite D2. unfold upd. now rewrite Nat.eqb_refl.
      + destruct (k_ctl t) as [|y [|e' r]|y [|e' r]] eqn:C; try discriminate; injection E1 as <-; (split; [easy|]); right; right; cbn [k_ctl k_pc k_st].
        * easy.
        * split; [unfold upd; destruct (Nat.eqb e e'); easy|]. split; [destruct (estate_eqb y Suspended); easy|easy].
        * split; [easy|]. split; [easy|]. destruct (k_pc t e') eqn:Q; try easy. unfold upd. destruct (Nat.eqb e e'); easy.
    - destruct (k_main t); try discriminate. injection E1 as <-. now split.
    - destruct (k_main t); try discriminate. injection E1 as <-. now split.
    - destruct (k_main t) as [|k o|o|o] eqn:M; try discriminate.
      + destruct k; [|destruct (o && _)%bool]; injection E1 as <-; now split.
      + destruct D as [((r & [D1|(e' & D0 & D1)] & D2) & D3)|[((r & D1) & D2 & D3)|(D1 & D2 & D3)]]; [rewrite D1 in E1; discriminate..|]. destruct (k_ctl t) eqn:C; try discriminate. injection E1 as <-. split; [easy|]. right; right. cbn. split; [destruct (estate_eqb (k_repo t) Normal); easy|easy].
      + destruct (engine_done t) eqn:ED; [|discriminate]. injection E1 as <-. now split.
    - destruct (Nat.ltb e0 (k_n t) && in_run (k_main t))%bool; [|discriminate]. destruct (Nat.eq_dec e0 e) as [->|NE].
      + specialize (F1 eq_refl). subst b. destruct D as [((r & D1 & D2) & D3)|[((r & D1) & D2 & D3)|(D1 & D2 & D3)]]; [rewrite D3 in E1; discriminate|rewrite D2 in E1; discriminate|].
        assert (XS : estate_eqb (k_st t e) Suspended = false) by now apply estate_eqb_neq. rewrite XS in E1.
        destruct (k_pc t e) as [|j|j|j oo|j oo|j oo|j oo w|j oo|oo] eqn:Q; try easy; repeat match goal with H : context [if ?c then _ else _] |- _ => destruct c end; try discriminate; injection E1 as <-; (split; [easy|]); right; right; cbn [set_pc k_st k_ctl k_pc]; unfold upd; rewrite Nat.eqb_refl; easy.
      + assert (G : forall p lg, t' = set_pc t e0 p lg -> inv t').
        { intros p lg ->. split; [easy|]. cbn [set_pc k_st k_ctl k_pc]. unfold upd. destruct (Nat.eqb_spec e e0); [congruence|]. exact D. }
        destruct (k_pc t e0) eqn:Q; repeat match goal with H : context [if ?c then _ else _] |- _ => destruct c end; try discriminate; injection E1 as E1; symmetry in E1; eapply G; exact E1. }
  assert (I1 : inv s1).
  { cbn [k_step] in S. destruct (k_ctl s) eqn:C; try discriminate. assert (Q : estate_eqb (k_repo s) x = false) by now apply estate_eqb_neq. rewrite Q in S. injection S as <-. split; [easy|]. left. cbn. split; [|easy]. exists (seq 0 (k_n s)). split; [now left|]. apply in_seq. lia. }
  assert (I2 : inv s2).
  { clear S CI P. revert s1 I1 RU NS NC. induction ls' as [|l r IH]; intros s1 I1 RU NS NC; cbn [k_run] in RU; [now injection RU as <-|]. destruct (k_step s1 l) as [s3|] eqn:E3; [|discriminate]. inversion NS; subst. apply (IH s3); try easy.
    - eapply ST; [exact I1|exact E3|easy|]. intros y Y. apply (NC y). now left.
    - intros y Y. apply (NC y). now right. }
  destruct I2 as (_ & [((r & [D1|(e' & D0 & D1)] & D2) & D3)|[((r & D1) & D2 & D3)|(D1 & D2 & D3)]]); try congruence. intros i' ok' Z. rewrite Z in D3. easy.
Qed.
Definition sched_sleep := [LRun; LMain; LElem 0 true false; LElem 0 true false; LCall Suspended; LCtl; LCtl; LElem 0 true false; LElem 0 true false; LElem 0 true false; LElem 0 false false].
Example C35_resume_wakes_ex : exists s s1 s2, k_run (k_new 1 two) sched_sleep = Some s /\ k_pc s 0 = ESleep 1 true false /\ k_repo s <> Normal /\ k_step s (LCall Normal) = Some s1 /\
  k_run s1 [LCtl; LCtl; LCtl] = Some s2 /\ Forall (no_spurious 0) [LCtl; LCtl; LCtl] /\ k_ctl s2 = CIdle.
Proof. do 3 eexists. split; [vm_compute; reflexivity|]. split; [reflexivity|]. split; [easy|]. split; [vm_compute; reflexivity|]. split; [vm_compute; reflexivity|]. split; [now repeat constructor|reflexivity]. Qed.
(** Suspended and resumed in a wait: both iterations are executed. *)
Example C35_all_or_skipped_ex : exists s b, k_run (k_new 1 two) (sched_sleep ++ [LCall Normal; LCtl; LCtl; LCtl; LElem 0 true false; LElem 0 true false; LElem 0 false false] ++ again 0 ++ [LElem 0 true false; LMain]) = Some s /\ k_log s = [] ++ KEnd true :: b /\
  ~ In (KSkip 0) (this_run b) /\ starts 0 (this_run b) = 2 /\ existsb is_susp (this_run b) = true.
Proof. do 2 eexists. split; [vm_compute; reflexivity|]. split; [reflexivity|]. split; [cbn; intuition discriminate|]. split; reflexivity. Qed.

Print Assumptions C34_no_start_after_cancel.
Print Assumptions C34_result.
Print Assumptions C34_next_run_is_normal.
Print Assumptions C34_cancelled_run_ends.
Print Assumptions C34_process_stops.
Print Assumptions C35_suspend_loses_work_refuted.
Print Assumptions C35_lost_wakeup_refuted.
Print Assumptions C35_all_or_skipped_partial.
Print Assumptions C35_resume_wakes_partial.
