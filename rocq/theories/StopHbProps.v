(** C127: what is visible when a pool runs and stops, and where stopping its threads races. *)
From Verif Require Import ListUtil StopHbSpec StopHbModel StopHbProofs.
Import ListNotations.

(** What was done before a task was handed to the pool happens before the task begins. *)
Theorem C127_commit ls h j b k : stop_run ls h -> noted (s_log h) j b (NBegin k) ->
  exists i a, noted (s_log h) i a (NCommit k) /\ sooner (s_log h) i j.
Proof. intros R N. eapply (v_b h (VI_run _ _ R)); exact N. Qed.

(** All that a pool thread ever does happens before the return of its join, so it does nothing afterwards. *)
Theorem C127_join ls h j a t : stop_run ls h -> noted (s_log h) j a (NJoined t) ->
  forall i x, nth_error (s_log h) i = Some (Pool t, x) -> sooner (s_log h) i j.
Proof. intros R N. destruct (v_join h (VI_run _ _ R) _ _ _ N) as (_ & _ & S). exact S. Qed.

(** A pool thread that has done anything before destroy returns does nothing afterwards. *)
Theorem C127_stopped ls h j a t i x i' x' : stop_run ls h -> noted (s_log h) j a NDestroyed -> i < j -> nth_error (s_log h) i = Some (Pool t, x) ->
  nth_error (s_log h) i' = Some (Pool t, x') -> i' < j.
Proof.
  intros R N L H H'. pose proof (VI_run _ _ R) as I. destruct (v_ret h I _ _ N) as [_ V]. destruct (V i t x L H) as (k & u & L' & J).
  destruct (v_join h I _ _ _ J) as (_ & _ & S). pose proof (sooner_lt _ _ _ (S i' x' H')). lia.
Qed.

(** All that the pool threads did before destroy returns happens before its return, if the joins made by others (those who release secondary threads, the monitor) do. *)
Theorem C127_destroy_partial ls h j a : stop_run ls h -> noted (s_log h) j a NDestroyed ->
  (forall i u t, i < j -> u <> 0 -> noted (s_log h) i (User u) (NJoined t) -> sooner (s_log h) i j) ->
  forall i t x, i < j -> nth_error (s_log h) i = Some (Pool t, x) -> sooner (s_log h) i j.
Proof.
  intros R N HO i t x L H. pose proof (VI_run _ _ R) as I. destruct (v_ret h I _ _ N) as [-> V]. destruct (V i t x L H) as (k & u & L' & J).
  destruct (v_join h I _ _ _ J) as (_ & _ & S). eapply so_trans; [eapply S; exact H|]. destruct (Nat.eq_dec u 0) as [->|NU].
  - eapply so_thread; [exact L'|exact J|exact N].
  - eapply HO; eassumption.
Qed.

(** Two accesses of a stop flag race only if one of them is the test of the pool thread between two tasks, or one is by destroy and the other by a user thread that is not the
    one that destroys. *)
Theorem C127_flag_partial ls h i j a b t p q : stop_run ls h -> flag_race (s_log h) i j a b t p q ->
  p = InLoop \/ q = InLoop \/ (p = InDestroy /\ exists u, b = User u /\ u <> 0) \/ (q = InDestroy /\ exists u, a = User u /\ u <> 0).
Proof.
  intros R (NE & F1 & F2 & _ & S1 & S2). pose proof (fi_ord h (FI_run _ _ R)) as O.
  assert (D : excl a b p q \/ ~ excl a b p q).
  { unfold excl. destruct p, q; try (left; tauto); try (right; intros [X|[X|[[X _]|[X _]]]]; discriminate);
    destruct a as [[|u]|t1]; destruct b as [[|v]|t2];
    try (left; right; right; left; split; [reflexivity|eexists; split; [reflexivity|lia]]);
    try (left; right; right; right; split; [reflexivity|eexists; split; [reflexivity|lia]]);
    right; intros [X|[X|[(X & w & Y & Z)|(X & w & Y & Z)]]]; try discriminate; injection Y as Y; lia. }
  destruct D as [D|D]; [exact D|]. exfalso. destruct (Nat.lt_gt_cases i j) as [X _]. destruct (X NE) as [L|L].
  - apply S1. eapply O; eassumption.
  - apply S2. eapply O; [exact L|exact F2|exact F1|]. intros E. apply D. unfold excl in *. tauto.
Qed.

(** ** Runs *)
Fixpoint stop_exec (h : pst) (ls : list slabel) : option pst :=
  match ls with [] => Some h | l :: r => match stop_step h l with Some h' => stop_exec h' r | None => None end end.
Lemma stop_exec_run ls : forall pre h h', stop_run pre h -> stop_exec h ls = Some h' -> stop_run (pre ++ ls) h'.
Proof.
  induction ls as [|l r IH]; intros pre h h' R E; cbn [stop_exec] in E.
  - injection E as <-. rewrite app_nil_r. exact R.
  - destruct (stop_step h l) as [h1|] eqn:S; [|discriminate]. replace (pre ++ l :: r) with ((pre ++ [l]) ++ r) by (rewrite <- app_assoc; reflexivity).
    eapply IH; [|exact E]. eapply sr_step; eassumption.
Qed.
Definition log_of (ls : list slabel) : slog := match stop_exec s_init ls with Some h => s_log h | None => [] end.
Lemma log_run ls : (if stop_exec s_init ls then true else false) = true -> exists h, stop_run ls h /\ s_log h = log_of ls.
Proof.
  unfold log_of. destruct (stop_exec s_init ls) as [h|] eqn:E; [|discriminate]. intros _. exists h. split; [|reflexivity].
  apply (stop_exec_run ls [] s_init h); [constructor|exact E].
Qed.

(** Which positions can come after which: a set that is closed under the two rules. *)
Definition who_eqb (a b : who) : bool := match a, b with User u, User v => Nat.eqb u v | Pool u, Pool v => Nat.eqb u v | _, _ => false end.
Definition sloc_eqb (a b : sloc) : bool :=
  match a, b with
  | LNew u, LNew v | LEnd u, LEnd v | LMtx u, LMtx v | LQueue u, LQueue v | LTell u, LTell v => Nat.eqb u v
  | LList, LList => true
  | _, _ => false
  end.
Definition edge (x y : who * sact) : bool :=
  who_eqb (fst x) (fst y) || match snd x, snd y with SRel l, SAcq l' => sloc_eqb l l' | _, _ => false end.
Definition edge_at (m : slog) (i j : nat) : bool :=
  Nat.ltb i j && match nth_error m i, nth_error m j with Some x, Some y => edge x y | _, _ => false end.
Definition closed_set (m : slog) (S : list nat) : bool :=
  forallb (fun i => forallb (fun j => negb (edge_at m i j) || memb j S) (seq 0 (length m))) S.
Lemma who_eqb_refl a : who_eqb a a = true.
Proof. destruct a; cbn; apply Nat.eqb_refl. Qed.
Lemma sloc_eqb_refl a : sloc_eqb a a = true.
Proof. destruct a; cbn; try apply Nat.eqb_refl; reflexivity. Qed.
Lemma closed_sooner m S i j : closed_set m S = true -> sooner m i j -> In i S -> In j S.
Proof.
  intros C H. assert (E : forall x y, edge_at m x y = true -> y < length m -> In x S -> In y S).
  { intros x y EX LY IX. unfold closed_set in C. rewrite forallb_forall in C. specialize (C x IX). rewrite forallb_forall in C.
    specialize (C y). rewrite EX in C. cbn [negb orb] in C. apply memb_in. apply C. apply in_seq. lia. }
  induction H as [i j a x y L H1 H2|i j a b l L H1 H2|i k j _ I1 _ I2]; intros I0.
  - apply (E i j); [|eapply nth_len; exact H2|exact I0]. unfold edge_at. rewrite H1, H2. apply Nat.ltb_lt in L. rewrite L. unfold edge. cbn [fst]. rewrite who_eqb_refl. reflexivity.
  - apply (E i j); [|eapply nth_len; exact H2|exact I0]. unfold edge_at. rewrite H1, H2. apply Nat.ltb_lt in L. rewrite L. unfold edge. cbn [snd]. rewrite sloc_eqb_refl, orb_true_r. reflexivity.
  - auto.
Qed.
Lemma not_sooner m S i j : closed_set m S = true -> memb i S = true -> memb j S = false -> ~ sooner m i j.
Proof. intros C I J H. apply memb_in in I. apply memb_false in J. apply J. eapply closed_sooner; eassumption. Qed.

(** A pool of one thread is made, and destroyed while its thread looks for tasks. *)
Definition flag_ls : list slabel :=
  [LInit 1 0; LUser 0 false; LUser 0 false; LUser 0 false; LUser 0 false; LWork 0; LWork 0; LMiss 0; LDestroy; LUser 0 false].
Theorem C127_flag_refuted : exists ls h i j, stop_run ls h /\ flag_race (s_log h) i j (Pool 0) (User 0) 0 InLoop InDestroy.
Proof.
  destruct (log_run flag_ls eq_refl) as (h & R & E). exists flag_ls, h, 5, 7. split; [exact R|]. rewrite E.
  split; [discriminate|]. split; [left; reflexivity|]. split; [right; reflexivity|]. split; [right; reflexivity|]. split.
  - apply (not_sooner _ [5]); vm_compute; reflexivity.
  - intros S. apply sooner_lt in S. lia.
Qed.

(** A user thread releases a secondary thread, and has told the one that destroys the pool by no means that orders memory. *)
Definition mark_ls : list slabel :=
  [LInit 0 1; LUser 0 false; LUser 0 false; LUser 0 false; LUser 0 false; LRelease 1 1; LUser 1 false; LUser 1 false; LUser 1 false; LUser 1 false; LUser 1 false;
   LDestroy; LUser 0 false].
Theorem C127_mark_refuted : exists ls h i j, stop_run ls h /\ flag_race (s_log h) i j (User 1) (User 0) 0 InList InDestroy.
Proof.
  destruct (log_run mark_ls eq_refl) as (h & R & E). exists mark_ls, h, 6, 9. split; [exact R|]. rewrite E.
  split; [discriminate|]. split; [right; reflexivity|]. split; [right; reflexivity|]. split; [left; reflexivity|]. split.
  - apply (not_sooner _ [6; 7]); vm_compute; reflexivity.
  - intros S. apply sooner_lt in S. lia.
Qed.

(** A secondary thread executes task 7; the monitor (user thread 2) gives that thread up; then the pool is destroyed. *)
Definition lost_ls : list slabel :=
  [LInit 0 1; LUser 0 false; LUser 0 false; LUser 0 false; LUser 0 false; LCommit (User 0) 7 0; LWork 0; LWork 0; LTake 0 0 1 false; LWork 0; LWork 0; LWork 0;
   LMonitor 2; LUser 2 false; LUser 2 true; LWork 0; LUser 2 false; LUser 2 false; LDestroy; LUser 0 false].
Theorem C127_destroy_refuted : exists ls h i j, stop_run ls h /\ noted (s_log h) i (Pool 0) (NEnd 7) /\ noted (s_log h) j (User 0) NDestroyed /\ i < j /\ ~ sooner (s_log h) i j.
Proof.
  destruct (log_run lost_ls eq_refl) as (h & R & E). exists lost_ls, h, 12, 23. split; [exact R|]. rewrite E.
  split; [reflexivity|]. split; [reflexivity|]. split; [lia|].
  apply (not_sooner _ [12; 18; 19; 20; 21; 22]); vm_compute; reflexivity.
Qed.

(** A run in which everything comes to its end: two threads, a task that is stolen, waiting, destroy. *)
Definition stop_ls : list slabel :=
  [LInit 1 1; LUser 0 false; LUser 0 false; LUser 0 false; LUser 0 false; LUser 0 false; LCommit (User 3) 7 1; LTouch (User 3) 0; LWork 0; LWork 0; LSleep 0; LReady 0 true false;
   LWork 1; LWork 1; LTake 1 1 1 true; LWork 1; LCommit (Pool 1) 8 0; LWork 1; LWork 1; LDestroy; LUser 0 false; LReady 0 false false; LWork 0; LUser 0 false; LUser 0 false;
   LWork 1; LUser 0 false; LUser 0 false].
Example C127_case : exists h, stop_run stop_ls h /\
  (exists j, noted (s_log h) j (Pool 1) (NBegin 7)) /\ (exists j, noted (s_log h) j (User 0) (NJoined 0)) /\ (exists j, noted (s_log h) j (User 0) (NJoined 1)) /\
  (exists i j, noted (s_log h) i (Pool 1) (NEnd 7) /\ noted (s_log h) j (User 0) NDestroyed /\ i < j) /\
  (forall i u t, u <> 0 -> ~ noted (s_log h) i (User u) (NJoined t)).
Proof.
  destruct (log_run stop_ls eq_refl) as (h & R & E). exists h. split; [exact R|]. rewrite E. clear R E h.
  split; [exists 22; reflexivity|]. split; [exists 36; reflexivity|]. split; [exists 43; reflexivity|]. split; [exists 26, 44; split; [reflexivity|]; split; [reflexivity|lia]|].
  intros i u t NU N. apply nth_error_In in N. vm_compute in N. repeat (destruct N as [N|N]; [congruence|]). destruct N.
Qed.

Print Assumptions C127_commit.
Print Assumptions C127_join.
Print Assumptions C127_stopped.
Print Assumptions C127_destroy_partial.
Print Assumptions C127_flag_partial.
Print Assumptions C127_flag_refuted.
Print Assumptions C127_mark_refuted.
Print Assumptions C127_destroy_refuted.
