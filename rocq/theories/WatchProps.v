(** C131: a pool that watches itself. Init, destroy and deletion of a pool next to its monitor thread; see WatchModel and WatchSpec. *)
From Verif Require Import WatchModel WatchSpec WatchProofs.
From Coq Require Import Lia.
Local Open Scope nat_scope.
Local Open Scope list_scope.

(** A pool that is never configured to be watched never crashes and touches no deleted thread, however often it is set up, taken down and used again. *)
Theorem C131_alone_partial size span ls : ~ In (LConfig true) ls -> wrun size span (w_new false) ls <> WCrash /\ wrun size span (w_new false) ls <> WUndef.
Proof. intro N. now apply alone_run. Qed.
Example C131_alone_case : exists s, wrun 2 1 (w_new false) ([LInit] ++ repeat LUser 6 ++ [LConfig false; LDestroy] ++ repeat LUser 6 ++ [LConfig false; LInit] ++ repeat LUser 6) = WRun s /\ w_init s = true /\ w_vec s = [Some 2; Some 3] /\ w_mon s = None.
Proof. eexists. split; [vm_compute; reflexivity|]. repeat split. Qed.

(** A pool whose user never calls destroy, watched or not and however it is configured, never crashes and touches no deleted thread, for any interleaving of the monitor, up to and including its deletion. *)
Theorem C131_plain_partial size span en ls : ~ In LDestroy ls -> wrun size span (w_new en) ls <> WCrash /\ wrun size span (w_new en) ls <> WUndef.
Proof. intro N. apply plain_run; [apply ginv_new|apply pinv_new|exact N]. Qed.
Example C131_plain_case : exists s, wrun 2 1 (w_new true)
  ([LInit; LUser; LUser; LMon true; LMon true; LMon true] ++ repeat LUser 4 ++ [LMon true; LMon true; LMon true; LMon true; LMon true; LMon true; LMon true; LMon true; LMon true; LDelete; LUser]) = WRun s /\
  w_user s = X2 /\ w_mon s = Some (W4 1 2) /\ w_vec s = [Some 0; Some 1].
Proof. eexists. split; [vm_compute; reflexivity|]. repeat split. Qed.

(** The deletion of such a pool returns: once it has told the monitor to stop, the monitor ends within [2 * n + 7] steps of its own, [n] being
    the number of primary threads, whatever it finds them doing, and then the deletion runs to its end, by which every primary thread is deleted. *)
Theorem C131_returns_partial size span en ls s bs :
  ~ In LDestroy ls -> wrun size span (w_new en) ls = WRun s -> w_user s = X2 -> 2 * length (w_vec s) + 7 <= length bs ->
  exists k n s', k <= length bs /\ wrun size span s (map LMon (firstn k bs) ++ repeat LUser n) = WRun s' /\ w_user s' = Gone /\ w_mon s' = None /\ w_init s' = false /\
    w_vec s' = [] /\ (forall p, In (Some p) (w_vec s) -> w_alive s' p = false).
Proof.
  intros N E U L. destruct (plain_run size span ls (w_new en) (ginv_new size en) (pinv_new en) N) as [_ H]. destruct (H _ E) as [G P]. clear H.
  assert (A : exists k s1, k <= length bs /\ wrun size span s (map LMon (firstn k bs)) = WRun s1 /\ ginv size s1 /\ w_user s1 = X2 /\ (w_mon s1 = Some WEnd \/ w_mon s1 = None) /\ w_vec s1 = w_vec s).
  { destruct (w_mon s) as [p|] eqn:M.
    - destruct (mon_ends size span bs s p G P U M) as (k & s1 & K & E1 & G1 & P1 & U1 & M1); [|exists k, s1; tauto].
      pose proof (p_mon _ P) as PM. rewrite M in PM. destruct p; cbn; lia.
    - exists 0, s. repeat split; auto; try apply G; lia. }
  destruct A as (k & s1 & K & E1 & G1 & U1 & M1 & V1).
  assert (B : exists s2, wstep size span s1 LUser = WRun s2 /\ w_user s2 = D1 true /\ w_mon s2 = None /\ w_vec s2 = w_vec s1) by (cbn [wstep]; rewrite U1; destruct M1 as [-> | M1]; [eexists; split; [reflexivity|]; repeat split|rewrite M1; eexists; split; [reflexivity|]; split; [reflexivity|]; split; [exact M1|reflexivity]]).
  destruct B as (s2 & E2 & U2 & M2 & V2). destruct (w_init s2) eqn:I2.
  - set (s3 := user s2 (D2 0 true) [WNote FInit false]). assert (E3 : wstep size span s2 LUser = WRun s3) by (cbn [wstep]; now rewrite U2, I2).
    destruct (take_down size span (length (w_vec s3) - 0) s3 0 true eq_refl eq_refl) as (s4 & E4 & U4 & I4' & _ & M4 & V4 & _ & A4).
    exists k, (2 + (length (w_vec s3) - 0 + 3)), s4. split; [exact K|]. rewrite wrun_app, E1. cbn [plus repeat wrun]. rewrite E2. rewrite E3. split; [exact E4|]. split; [exact U4|]. split; [rewrite M4; exact M2|]. split; [exact I4'|]. split; [exact V4|].
    intros p X. rewrite <- V1, <- V2 in X. apply In_nth_error in X. destruct X as [j X]. apply (A4 j); [lia|exact X].
  - pose proof (ginv_step size span _ _ _ G1 E2) as G2. pose proof (g_len _ _ G2) as V. rewrite U2, I2 in V. destruct V as [[V _]|[_ V]]; [|discriminate].
    exists k, 2. eexists. split; [exact K|]. rewrite wrun_app, E1. cbn [plus repeat wrun]. rewrite E2. cbn [wstep]. rewrite U2, I2. split; [reflexivity|]. split; [reflexivity|]. split; [exact M2|]. split; [exact I2|]. split; [exact V|].
    intros p X. rewrite <- V1, <- V2, V in X. destruct X.
Qed.
Example C131_returns_case : exists s, let ls := [LInit] ++ repeat LUser 6 ++ [LMon true; LMon true; LMon true; LMon true; LDelete; LUser] in
  wrun 2 1 (w_new true) ls = WRun s /\ ~ In LDestroy ls /\ w_user s = X2 /\ w_mon s = Some (W2b 1) /\ length (w_vec s) = 2.
Proof. eexists. split; [vm_compute; reflexivity|]. split; [|repeat split]. cbn. intros H. repeat destruct H as [H|H]; try discriminate H. exact H. Qed.

(** REFUTED: a watched pool cannot be used again. In every reached state in which it is watched and set up and no call is going on, destroy followed by init ends the
    whole program, whether the monitor moves in between or not: destroy leaves the monitor thread joinable, and init assigns a new thread to it. *)
Theorem C131_again_refuted size span en ls s :
  wrun size span (w_new en) ls = WRun s -> w_user s = UIdle -> w_init s = true -> w_en s = true ->
  exists n, wrun size span s ([LDestroy] ++ repeat LUser n ++ [LInit; LUser; LUser]) = WCrash.
Proof.
  intros E U I EN. pose proof (ginv_run size span ls _ _ (ginv_new size en) E) as G.
  pose proof (g_mon _ _ G) as M. rewrite U in M. destruct (M eq_refl EN (or_introl I)) as (p & MP & _). clear M.
  set (s1 := user s (D1 false) []). assert (E1 : wstep size span s LDestroy = WRun s1) by (cbn [wstep]; now rewrite U).
  set (s2 := user s1 (D2 0 false) [WNote FInit false]). assert (E2 : wstep size span s1 LUser = WRun s2) by (cbn [wstep s1 user w_user w_init]; now rewrite I).
  destruct (take_down size span (length (w_vec s2) - 0) s2 0 false eq_refl eq_refl) as (s3 & E3 & U3 & I3' & EN3 & M3 & _).
  exists (1 + (length (w_vec s2) - 0 + 3)). cbn [app wrun]. rewrite E1. cbn [plus repeat app wrun]. rewrite E2. rewrite wrun_app, E3. cbn [wrun wstep]. rewrite U3. cbn [wrun wstep user w_user w_init w_en w_mon]. rewrite I3'. cbn [wrun wstep user w_user w_init w_en w_mon].
  rewrite EN3, M3. cbn [s1 s2 user w_en w_mon]. now rewrite EN, MP.
Qed.
Example C131_again_case : exists s, wrun 2 1 (w_new false) ([LConfig true; LInit] ++ repeat LUser 6 ++ [LConfig false; LMon true; LMon true]) = WRun s /\ w_user s = UIdle /\ w_init s = true /\ w_en s = true.
Proof. eexists. split; [vm_compute; reflexivity|]. repeat split. Qed.

(** REFUTED, more generally: no configuration between destroy and init helps. Whatever was called before, if the pool is not set up, its former monitor was not
    joined and it is to be watched, then init ends the program, even if the former monitor has ended because the pool was meanwhile configured not to be watched. *)
Theorem C131_config_refuted size span s :
  w_user s = UIdle -> w_init s = false -> w_mon s <> None ->
  wrun size span s [LConfig true; LInit; LUser; LUser] = WCrash.
Proof.
  intros U I M. cbn [wrun wstep]. rewrite U, I. cbn [wrun wstep user set_flags w_user w_init w_en w_mon]. rewrite ?I. cbn [wrun wstep user set_flags w_user w_init w_en w_mon]. destruct (w_mon s); [reflexivity|now destruct M].
Qed.
Example C131_config_case : exists s, wrun 2 1 (w_new true) ([LInit] ++ repeat LUser 6 ++ [LDestroy] ++ repeat LUser 6 ++ [LConfig false; LMon true]) = WRun s /\ w_user s = UIdle /\ w_init s = false /\ w_mon s = Some WEnd.
Proof. eexists. split; [vm_compute; reflexivity|]. repeat split. Qed.

(** Destroy may pull the threads from under the monitor. In every reached state in which the pool is set up with at least one primary
    thread and the monitor is about to look at them, destroy may delete the thread the monitor is looking at. *)
Lemma pulled size span en ls s b :
  wrun size span (w_new en) ls = WRun s -> w_user s = UIdle -> w_init s = true -> 0 < size -> w_mon s = Some W3 ->
  wrun size span s [LMon b; LMon b; LDestroy; LUser; LUser; LMon b] = WUndef.
Proof.
  intros E U I S M. pose proof (ginv_run size span ls _ _ (ginv_new size en) E) as G.
  pose proof (g_vec _ _ G) as V. pose proof (g_len _ _ G) as L. rewrite U in V, L. specialize (V eq_refl). destruct L as [[_ L]|[L _]]; [congruence|].
  unfold some_alive in V. destruct (w_vec s) as [|x v] eqn:VE; [cbn in L; lia|]. inversion V as [|y w (p & -> & A) V']; subst.
  cbn [wrun wstep]. rewrite M. cbn [wrun wstep mon user w_user w_init w_vec w_mon w_alive]. rewrite VE. cbn [length Nat.ltb Nat.leb nth_error wrun wstep mon user w_user w_init w_vec w_mon w_alive].
  rewrite U, ?VE. cbn [nth_error wrun wstep mon user w_user w_init w_vec w_mon w_alive]. rewrite I. cbn [wrun wstep mon user w_user w_init w_vec w_mon w_alive]. rewrite VE.
  cbn [nth_error wrun wstep mon user set_vec w_user w_init w_vec w_mon w_alive]. now rewrite upd_same.
Qed.
(** REFUTED: from every reached state in which a watched pool with at least one primary thread is set up and no call is going on, wherever the monitor is
    and whatever its span, destroy may delete the thread the monitor is looking at: the monitor moves, destroy begins, and the next step of the monitor uses a deleted thread. *)
Theorem C131_use_refuted size span en ls s :
  wrun size span (w_new en) ls = WRun s -> w_user s = UIdle -> w_init s = true -> w_en s = true -> 0 < size ->
  exists m, wrun size span s (repeat (LMon false) m ++ [LDestroy; LUser; LUser; LMon false]) = WUndef.
Proof.
  intros E U I EN S. pose proof (ginv_run size span ls _ _ (ginv_new size en) E) as G.
  pose proof (g_mon _ _ G) as M. rewrite U in M. destruct (M eq_refl EN (or_introl I)) as (p & MP & NE').
  destruct (mon_looks size span (far span p) s p U EN I MP NE' (le_n _)) as (m & _ & [H|(s1 & E1 & U1 & I1' & M1)]).
  - exists m. now rewrite wrun_app, H.
  - exists (m + 2). rewrite repeat_app, <- app_assoc, wrun_app, E1. cbn [repeat app]. apply (pulled size span en (ls ++ repeat (LMon false) m)); auto. now rewrite wrun_app, E.
Qed.
Example C131_use_case : exists s, wrun 2 0 (w_new true) ([LInit] ++ repeat LUser 6 ++ [LMon true; LMon true; LMon true; LMon true; LMon true]) = WRun s /\ w_user s = UIdle /\ w_init s = true /\ w_en s = true /\ w_mon s = Some W3 /\ length (w_vec s) = 2.
Proof. eexists. split; [vm_compute; reflexivity|]. repeat split. Qed.

(** REFUTED: both flags the monitor polls are raced on, for every number of threads and every span. A first init alone races on the mark
    that the pool is set up; the deletion of a pool that was set up races on the mark that it is watched. *)
Theorem C131_flag_refuted size span :
  (exists ls s, wrun size span (w_new true) (LInit :: ls) = WRun s /\ ~ In LDestroy ls /\ ~ In LDelete ls /\ flag_race (w_log s) FInit) /\
  (exists ls s, wrun size span (w_new true) (LInit :: ls) = WRun s /\ ~ In LDestroy ls /\ flag_race (w_log s) FEnable).
Proof.
  assert (NR : forall n l, In l (repeat LUser n) -> l = LUser) by (intros n l H; now apply repeat_spec in H).
  split.
  - set (pre := [LUser; LUser; LMon true; LMon true]). destruct (wrun size span (w_new true) (LInit :: pre)) as [s1| | |] eqn:E1; try (cbn in E1; discriminate).
    assert (U1 : w_user s1 = I3 0) by (cbn in E1; now injection E1 as <-). assert (M1 : w_mon s1 = Some W1b) by (cbn in E1; now injection E1 as <-).
    destruct (make_up size span (size - 0) s1 0 U1 eq_refl) as (s2 & E2 & U2 & M2 & _).
    set (s3 := mon s2 (if w_init s2 then W2 span else W1) [WNote FInit false]).
    assert (E3 : wstep size span s2 (LMon true) = WRun s3) by (cbn [wstep]; now rewrite M2, M1).
    set (s4 := user (set_flags s3 (w_en s3) true) UIdle [WNote FInit true]). assert (E4 : wstep size span s3 LUser = WRun s4) by (cbn [wstep s3 mon w_user]; now rewrite U2).
    exists (pre ++ repeat LUser (size - 0 + 1) ++ [LMon true; LUser]), s4. split; [|split; [|split]].
    + rewrite app_comm_cons, wrun_app, E1, wrun_app, E2. cbn [wrun]. rewrite E3, E4. reflexivity.
    + intro H. rewrite !in_app_iff in H. cbn in H. destruct H as [H|[H|H]]; [intuition discriminate|discriminate (NR _ _ H)|intuition discriminate].
    + intro H. rewrite !in_app_iff in H. cbn in H. destruct H as [H|[H|H]]; [intuition discriminate|discriminate (NR _ _ H)|intuition discriminate].
    + cbn [s4 s3 user set_flags mon w_log map]. rewrite <- app_assoc. apply adjacent. now right.
  - set (pre := [LUser; LUser; LMon true]). destruct (wrun size span (w_new true) (LInit :: pre)) as [s1| | |] eqn:E1; try (cbn in E1; discriminate).
    assert (U1 : w_user s1 = I3 0) by (cbn in E1; now injection E1 as <-). assert (M1 : w_mon s1 = Some W1) by (cbn in E1; now injection E1 as <-).
    destruct (make_up size span (size - 0) s1 0 U1 eq_refl) as (s2 & E2 & U2 & M2 & _).
    set (s3 := user (set_flags s2 (w_en s2) true) UIdle [WNote FInit true]). assert (E3 : wstep size span s2 LUser = WRun s3) by (cbn [wstep]; now rewrite U2).
    set (s4 := user s3 X1 []). assert (E4 : wstep size span s3 LDelete = WRun s4) by reflexivity.
    set (s5 := mon s4 (if w_en s4 then W1b else W2 span) [WNote FEnable false]).
    assert (E5 : wstep size span s4 (LMon true) = WRun s5) by (cbn [wstep s4 s3 user set_flags w_mon]; now rewrite M2, M1).
    set (s6 := user (set_flags s5 false (w_init s5)) X2 [WNote FEnable true]). assert (E6 : wstep size span s5 LUser = WRun s6) by reflexivity.
    exists (pre ++ repeat LUser (size - 0 + 1) ++ [LUser; LDelete; LMon true; LUser]), s6. split; [|split].
    + rewrite app_comm_cons, wrun_app, E1, wrun_app, E2. cbn [wrun]. rewrite E3, E4, E5, E6. reflexivity.
    + intro H. rewrite !in_app_iff in H. cbn in H. destruct H as [H|[H|H]]; [intuition discriminate|discriminate (NR _ _ H)|intuition discriminate].
    + cbn [s6 s5 user set_flags mon w_log map]. rewrite <- app_assoc. apply adjacent. now right.
Qed.

Print Assumptions C131_alone_partial.
Print Assumptions C131_plain_partial.
Print Assumptions C131_returns_partial.
Print Assumptions C131_again_refuted.
Print Assumptions C131_config_refuted.
Print Assumptions C131_use_refuted.
Print Assumptions C131_flag_refuted.
