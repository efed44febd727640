(** C113: the daemons of a pipeline are executed exactly while the pipeline is initialised, and never while they are being deleted. *)
From Verif Require Import TimerProps DaemProofs.
From Verif Require Export DaemSpec.
From Coq Require Import Lia ZArith.
Local Open Scope nat_scope.
Local Open Scope list_scope.

(** C113: in every schedule, between two calls: isInit agrees with what the calls returned; a daemon that no call has started, or that a call has stopped, has no thread that does anything; one that was started and not stopped
    is not asked to stop. *)
Theorem C113_between : forall n iv ls s, drun n iv dst_new ls = DTo s -> d_main s = DOut ->
  d_init s = initialised (d_log s) /\
  (forall k, k < n -> working (d_log s) = false -> ended (d_ts s k) /\ forall w o sp ms th, dstep n iv s (DlThread k w o) = DNo /\ dstep n iv s (DlTask k sp ms th) = DNo) /\
  (forall k, k < n -> working (d_log s) = true -> asked_to_stop (t_log (d_ts s k)) = false).
Proof.
  intros n iv ls s R M. assert (D := drun_inv n iv ls _ _ (dinv_new n) R). split; [apply (di_i _ _ D)|]. split.
  - intros k K W. assert (En : ended (d_ts s k)) by (apply stopped_ended with n; auto; [unfold want|unfold inside]; rewrite M; [now rewrite W|reflexivity]). split; [exact En|]. intros w o sp ms th. cbn [dstep]. unfold thread. destruct (k <? n); [|now split].
    now rewrite (ended_still _ (LtThread w o) En I), (ended_still _ (LtTask sp ms th) En I).
  - intros k K W. rewrite <- (ti_a _ (di_inv n s k D)), (di_s _ _ D k K). unfold want. now rewrite M, W.
Qed.
(** C113: a daemon that works and has not thrown is executed again, by at most five further actions of its own. *)
Definition throws_in (k : nat) (l : dlab) : bool := match l with DlTask j _ _ true => j =? k | _ => false end.
Definition of_daemon (k : nat) (l : dlab) : bool := match l with DlTask j _ _ _ | DlThread j _ _ => j =? k | _ => false end.
Lemma unthrown n iv k ls : forall s s', drun n iv s ls = DTo s' -> (forall l, In l ls -> throws_in k l = false) -> t_pc (d_ts s k) <> TThrew -> t_pc (d_ts s' k) <> TThrew.
Proof.
  induction ls as [|l ls IH]; intros s s' R Nt P; cbn [drun] in R; [now injection R as <-|]. destruct (dstep n iv s l) as [s1| |] eqn:E; try discriminate R. apply (IH s1 s' R); [intros x Hx; apply Nt; now right|]. specialize (Nt l (or_introl eq_refl)). clear IH R.
  assert (G : forall j tl m t, (forall sp ms, j = k -> tl <> LtTask sp ms true) -> timer_step (d_ts s j) tl = Some t -> t_pc (d_ts (set_t s m j t) k) <> TThrew).
  { intros j tl m t H T. cbn [set_t d_ts]. unfold upd. destruct (Nat.eqb_spec k j) as [<-|N]; [|exact P]. specialize (fun sp ms => H sp ms eq_refl).
    destruct tl as [iv'| | | |w o|sp ms th]; cbn [timer_step] in T; repeat match type of T with context [match ?x with _ => _ end] => destruct x eqn:?; try discriminate T end; injection T as <-; cbn; try congruence. exfalso. now apply (H sp ms). }
  destruct l as [early late|early late| | |j w o|j sp ms th]; cbn [dstep] in E.
  - destruct (d_main s); try discriminate E. destruct (d_init s); [|destruct early]; injection E as <-; exact P.
  - destruct (d_main s); try discriminate E. destruct (negb (d_init s)); [|destruct early]; injection E as <-; exact P.
  - destruct (d_main s); try discriminate E. injection E as <-; exact P.
  - unfold act in E. destruct (d_main s) as [|j v|j v|j v|j|j|j|]; try discriminate E.
    + destruct (j <? n); [|injection E as <-; exact P]. destruct (timer_step _ _) as [t|] eqn:T in E; [|discriminate E]. injection E as <-. eapply G; [|exact T]. discriminate.
    + destruct (j <? n); [|injection E as <-; exact P]. destruct (timer_step _ _) as [t|] eqn:T in E; [|discriminate E]. injection E as <-. eapply G; [|exact T]. discriminate.
    + destruct (t_user (d_ts s j)); (destruct (timer_step _ _) as [t|] eqn:T in E; [|discriminate E]); injection E as <-; (eapply G; [|exact T]); discriminate.
    + destruct (j <? n); [|injection E as <-; exact P]. destruct (t_pc (d_ts s j)); try discriminate E; injection E as <-; exact P.
    + destruct (timer_step _ _) as [t|] eqn:T in E; [|discriminate E]. injection E as <-. eapply G; [|exact T]. discriminate.
    + destruct (t_user (d_ts s j)); (destruct (timer_step _ _) as [t|] eqn:T in E; [|discriminate E]); injection E as <-; (eapply G; [|exact T]); discriminate.
  - apply thread_to in E as (K & t & T & ->). eapply G; [|exact T]. discriminate.
  - apply thread_to in E as (K & t & T & ->). eapply G; [|exact T]. intros sp' ms' -> X. injection X as -> -> ->. cbn in Nt. rewrite Nat.eqb_refl in Nt. discriminate.
Qed.
Lemma of_lab k l : mover l -> of_daemon k (lab k l) = true.
Proof. destruct l; intros []; cbn; apply Nat.eqb_refl. Qed.
Lemma next_shot n iv ls s k : drun n iv dst_new ls = DTo s -> d_main s = DOut -> k < n -> working (d_log s) = true -> (forall l, In l ls -> throws_in k l = false) ->
  exists ms s', drun n iv s ms = DTo s' /\ length ms <= 5 /\ (forall l, In l ms -> of_daemon k l = true) /\ d_main s' = DOut /\ d_log s' = d_log s /\ t_pc (d_ts s' k) = TShot /\ shots (t_log (d_ts s' k)) = S (shots (t_log (d_ts s k))).
Proof.
  intros R M K W Nt. assert (D := drun_inv n iv ls _ _ (dinv_new n) R). assert (St : t_stop (d_ts s k) = false) by (rewrite (di_s _ _ D k K); unfold want; now rewrite M, W).
  destruct (shoot _ (di_inv n s k D) St (unthrown n iv k ls _ _ R Nt ltac:(discriminate))) as (ms & t & T & L & Mv & P & Q).
  assert (Dd : d_dead s k = false). { destruct (d_dead s k) eqn:X; [|reflexivity]. exfalso. apply (none_dead n s D) with k; [unfold dying; now rewrite M|exact X]. }
  destruct (lift n iv k ms s t K Dd T Mv) as (s' & R' & A & _ & B & _ & _ & C). exists (map (lab k) ms), s'. split; [exact R'|]. split; [now rewrite map_length|]. split.
  - intros l Hl. apply in_map_iff in Hl as (x & <- & Hx). apply of_lab. now apply Mv.
  - rewrite A. split; [congruence|]. now split.
Qed.
Theorem C113_executed : forall n iv ls s k, drun n iv dst_new ls = DTo s -> d_main s = DOut -> k < n -> working (d_log s) = true -> (forall l, In l ls -> throws_in k l = false) ->
  exists ms s', drun n iv s ms = DTo s' /\ length ms <= 5 /\ (forall l, In l ms -> of_daemon k l = true) /\ shots (t_log (d_ts s' k)) = S (shots (t_log (d_ts s k))).
Proof. intros n iv ls s k R M K W Nt. destruct (next_shot n iv ls s k R M K W Nt) as (ms & s' & A & B & C & _ & _ & _ & F). now exists ms, s'. Qed.
(** C113 (the part that holds): as long as no init and no destroy failed after it had reached the daemons, they work exactly while the pipeline is initialised. *)
Theorem C113_while_init_partial : forall n iv ls s, drun n iv dst_new ls = DTo s -> d_main s = DOut -> clean (d_log s) ->
  forall k, k < n -> (d_init s = true -> asked_to_stop (t_log (d_ts s k)) = false) /\ (d_init s = false -> ended (d_ts s k)).
Proof.
  intros n iv ls s R M C k K. destruct (C113_between n iv ls s R M) as (I & S & W). rewrite I. assert (X : initialised (d_log s) = working (d_log s)).
  { clear - C. induction (d_log s) as [|c h IH]; [reflexivity|]. destruct C as [A B]. cbn [initialised working]. destruct c as [[]| |[]| |]; try reflexivity; try (apply IH; split; intros H; [apply A|apply B]; now right); exfalso; [apply A|apply B]; now left. }
  rewrite X. split; intros H; [now apply W|now apply (S k K H)].
Qed.
(** C113: the full claim is false: after an init that fails late (an element's init, say) the daemons work although the pipeline is not initialised, and destroy refuses to stop them. *)
Theorem C113_init_refuted : forall n iv, 0 < n -> exists ls s, drun n iv dst_new ls = DTo s /\ d_main s = DOut /\ d_init s = false /\ working (d_log s) = true /\ d_log s = [CInit false] /\
  forall early late s', dstep n iv s (DlDestroy early late) = DTo s' -> d_main s' = DOut /\ d_ts s' = d_ts s /\ working (d_log s') = true.
Proof.
  intros n iv N. assert (D1 : dinv n (at_ dst_new (DStarting 0 false))) by (apply (dstep_inv n iv dst_new (DlInit false true)); [apply dinv_new|reflexivity]).
  destruct (starts n iv (n - 0) _ 0 false eq_refl D1 eq_refl) as (ls & s & R & M & L). assert (D := drun_inv n iv ls _ _ D1 R). assert (Ii : d_init s = false) by (rewrite (di_i _ _ D), L; reflexivity).
  exists (DlInit false true :: ls), s. split; [exact R|]. split; [exact M|]. split; [exact Ii|]. split; [now rewrite L|]. split; [exact L|].
  intros early late s' E. cbn [dstep] in E. rewrite M, Ii in E. injection E as <-. cbn. split; [reflexivity|]. split; [reflexivity|]. now rewrite L.
Qed.
(** C113: nor does a destroy that fails late leave the daemons at work, though the pipeline stays initialised. *)
Theorem C113_destroy_refuted : forall n iv, 0 < n -> exists ls s, drun n iv dst_new ls = DTo s /\ d_main s = DOut /\ d_init s = true /\ d_log s = [CDestroy false; CInit true] /\ forall k, k < n -> ended (d_ts s k).
Proof.
  intros n iv N. assert (D1 : dinv n (at_ dst_new (DStarting 0 true))) by (apply (dstep_inv n iv dst_new (DlInit false false)); [apply dinv_new|reflexivity]).
  destruct (starts n iv (n - 0) _ 0 true eq_refl D1 eq_refl) as (ls & s & R & M & L). assert (D := drun_inv n iv ls _ _ D1 R). assert (Ii : d_init s = true) by (rewrite (di_i _ _ D), L; reflexivity).
  assert (X : dstep n iv s (DlDestroy false true) = DTo (at_ s (DStopping 0 false))) by (cbn [dstep]; rewrite M, Ii; reflexivity). assert (D2 := dstep_inv _ _ _ _ _ D X).
  destruct (stops n iv (n - 0) _ 0 false eq_refl D2 eq_refl) as (ls' & s' & R' & M' & L'). cbn in L'. rewrite L in L'. assert (R2 : drun n iv dst_new (DlInit false false :: ls ++ DlDestroy false true :: ls') = DTo s').
  { change (drun n iv (at_ dst_new (DStarting 0 true)) (ls ++ DlDestroy false true :: ls') = DTo s'). rewrite (drun_app _ _ _ _ _ _ R). cbn [drun]. now rewrite X. }
  exists (DlInit false false :: ls ++ DlDestroy false true :: ls'), s'. split; [exact R2|]. split; [exact M'|]. destruct (C113_between n iv _ _ R2 M') as (I2 & S2 & _). rewrite L' in I2, S2. split; [exact I2|]. split; [exact L'|].
  intros k K. now apply S2.
Qed.
(** C113: if the pipeline is deleted only while its daemons do not work, no daemon is executed while it is being deleted, in any schedule. *)
Theorem C113_deleted_partial : forall n iv s l, with_care n iv s -> dstep n iv s l <> DUndef.
Proof.
  intros n iv s l W E. assert (G : forall k tl, mover tl -> thread n s k tl <> DUndef).
  { intros k tl Mv X. unfold thread in X. destruct (Nat.ltb_spec k n) as [K|K]; [|discriminate X]. destruct (timer_step (d_ts s k) tl) as [t|] eqn:T; [|discriminate X]. destruct (t_pc t); try discriminate X. destruct (d_dead s k) eqn:Dd; [|discriminate X].
    assert (En := care_ended n iv s k W (di_d _ _ (proj1 (care_inv _ _ _ W)) k Dd) K). rewrite (ended_still _ tl En Mv) in T. discriminate. }
  destruct l as [early late|early late| | |k w o|k sp ms th]; cbn [dstep] in E.
  - destruct (d_main s); try discriminate E. destruct (d_init s); [|destruct early]; discriminate E.
  - destruct (d_main s); try discriminate E. destruct (negb (d_init s)); [|destruct early]; discriminate E.
  - destruct (d_main s); discriminate E.
  - unfold act in E. destruct (d_main s) as [|j v|j v|j v|j|j|j|] eqn:M; try discriminate E.
    + destruct (j <? n); [destruct (timer_step _ _)|]; discriminate E.
    + destruct (j <? n); [destruct (timer_step _ _)|]; discriminate E.
    + destruct (t_user (d_ts s j)); destruct (timer_step _ _); discriminate E.
    + destruct (Nat.ltb_spec j n) as [J|J]; [|discriminate E]. destruct (care_ended n iv s j W ltac:(unfold dying; now rewrite M) J) as [P|[P|P]]; rewrite P in E; discriminate E.
    + destruct (timer_step _ _); discriminate E.
    + destruct (t_user (d_ts s j)); destruct (timer_step _ _); discriminate E.
  - now apply (G k (LtThread w o)) in E.
  - now apply (G k (LtTask sp ms th)) in E.
Qed.
(** C113: a pipeline that is deleted while its daemons work can have a daemon executed while it is being deleted: from any state reached in which daemon 0 has not thrown. *)
Theorem C113_deleted_refuted : forall n iv ls s, 0 < n -> drun n iv dst_new ls = DTo s -> d_main s = DOut -> working (d_log s) = true -> (forall l, In l ls -> throws_in 0 l = false) ->
  exists ms, length ms <= 5 /\ (forall l, In l ms -> of_daemon 0 l = true) /\ drun n iv s (ms ++ [DlDelete; DlNext]) = DUndef.
Proof.
  intros n iv ls s N R M W Nt. destruct (next_shot n iv ls s 0 R M N W Nt) as (ms & s' & A & B & C & M' & _ & P & _). exists ms. split; [exact B|]. split; [exact C|].
  rewrite (drun_app _ _ _ _ _ _ A). cbn [drun dstep]. rewrite M'. cbn [dstep at_ d_main d_ts]. destruct (Nat.ltb_spec 0 n); [|lia]. now rewrite P.
Qed.
(** C113: init, destroy and, with care, deletion always can return; what they return is what was decided before the daemons were reached or by the other parts. *)
Theorem C113_returns : forall n iv s, with_care n iv s -> d_main s <> DOut -> d_main s <> DGone ->
  exists ls s', drun n iv s ls = DTo s' /\ (d_main s' = DOut \/ d_main s' = DGone /\ forall k, k < n -> ended (d_ts s' k)).
Proof.
  intros n iv s W NO NG. assert (D := proj1 (care_inv _ _ _ W)).
  assert (Gd : forall z k, with_care n iv z -> d_main z = DDeleting k -> exists ls s', drun n iv z ls = DTo s' /\ (d_main s' = DOut \/ d_main s' = DGone /\ forall k, k < n -> ended (d_ts s' k))).
  { intros z k Wz Mz. destruct (deletes n iv (n - k) z k eq_refl Wz Mz) as (ls & s' & R & M' & _). exists ls, s'. split; [exact R|]. right. split; [exact M'|]. intros i Ki. apply stopped_ended with n; auto; [exact (drun_inv _ _ _ _ _ (proj1 (care_inv _ _ _ Wz)) R)|unfold want; now rewrite M'|unfold inside; now rewrite M']. }
  destruct (d_main s) as [|k v|k v|k v|k|k|k|] eqn:M; try congruence.
  - destruct (starts n iv (n - k) s k v eq_refl D M) as (ls & s' & R & M' & _). exists ls, s'. auto.
  - destruct (stops n iv (n - k) s k v eq_refl D M) as (ls & s' & R & M' & _). exists ls, s'. auto.
  - destruct (waits n iv s k v D M) as (ls & s' & R & M' & _). destruct (stops n iv (n - S k) s' (S k) v eq_refl (drun_inv _ _ _ _ _ D R) M') as (ls' & s2 & R' & M2 & _). exists (ls ++ ls'), s2. rewrite (drun_app _ _ _ _ _ _ R). auto.
  - now apply Gd with k.
  - assert (K := di_n _ _ D). rewrite M in K. assert (Y : dying s = true) by (unfold dying; now rewrite M). assert (U := care_out n iv s k W Y K). assert (S := di_s _ _ D k K). rewrite (care_want n iv s k W Y) in S.
    assert (X2 : dstep n iv s DlNext = DTo (set_t s (DDeleting (Datatypes.S k)) k (d_ts s k))). { cbn [dstep]. rewrite M. unfold act. cbn [timer_step]. rewrite U, S, U. reflexivity. }
    destruct (Gd _ (Datatypes.S k) (wc_step n iv s DlNext _ W ltac:(discriminate) X2) eq_refl) as (ls & s' & R & Q). exists (DlNext :: ls), s'. split; [cbn [drun]; now rewrite X2|exact Q].
  - exfalso. assert (K := di_n _ _ D). rewrite M in K. apply (is_inside n s k D K); [unfold inside; rewrite M; apply Nat.eqb_refl|]. apply care_out with n iv; auto. unfold dying. now rewrite M.
Qed.
(** C113: when the pipeline is deleted, each of its daemons has been deleted and none has a thread that does anything. *)
Definition gone_upto (n : nat) (s : dst) : Prop :=
  match d_main s with DDeleting j => forall k, k < j -> d_dead s k = true | DDelStop j | DDelWait j => forall k, k <= j -> d_dead s k = true | DGone => forall k, k < n -> d_dead s k = true | _ => True end.
Lemma gone_step n iv s l s' : gone_upto n s -> dstep n iv s l = DTo s' -> gone_upto n s'.
Proof.
  intros G E. destruct l as [early late|early late| | |k w o|k sp ms th]; cbn [dstep] in E.
  - destruct (d_main s); try discriminate E. destruct (d_init s); [|destruct early]; injection E as <-; exact I.
  - destruct (d_main s); try discriminate E. destruct (negb (d_init s)); [|destruct early]; injection E as <-; exact I.
  - destruct (d_main s); try discriminate E. injection E as <-. intros k K. lia.
  - unfold act in E. unfold gone_upto in G. destruct (d_main s) as [|j v|j v|j v|j|j|j|] eqn:M; try discriminate E.
    + destruct (j <? n); [destruct (timer_step _ _); [|discriminate E]|]; injection E as <-; exact I.
    + destruct (j <? n); [destruct (timer_step _ _) as [t|]; [|discriminate E]|]; injection E as <-; unfold gone_upto; cbn; [now destruct (t_user t)|exact I].
    + destruct (t_user (d_ts s j)); (destruct (timer_step _ _) as [t|]; [|discriminate E]); injection E as <-; exact I.
    + destruct (Nat.ltb_spec j n) as [J|J].
      * assert (Q : forall k, k <= j -> upd (d_dead s) j true k = true) by (intros k K; unfold upd; destruct (Nat.eqb_spec k j); [reflexivity|apply G; lia]). destruct (t_pc (d_ts s j)); try discriminate E; injection E as <-; exact Q.
      * injection E as <-. intros k K. apply G. lia.
    + destruct (timer_step _ _) as [t|]; [|discriminate E]. injection E as <-. unfold gone_upto. cbn. destruct (t_user t); intros k K; apply G; lia.
    + destruct (t_user (d_ts s j)); (destruct (timer_step _ _) as [t|]; [|discriminate E]); injection E as <-; intros k K; apply G; lia.
  - apply thread_to in E as (K & t & T & ->). exact G.
  - apply thread_to in E as (K & t & T & ->). exact G.
Qed.
Theorem C113_gone : forall n iv ls s, drun n iv dst_new ls = DTo s -> d_main s = DGone -> (forall k, k < n -> d_dead s k = true /\ ended (d_ts s k)) /\ forall l, dstep n iv s l = DNo.
Proof.
  intros n iv ls s R M. assert (D := drun_inv n iv ls _ _ (dinv_new n) R). assert (En : forall k, k < n -> ended (d_ts s k)) by (intros k K; apply stopped_ended with n; auto; [unfold want|unfold inside]; now rewrite M). split.
  - intros k K. split; [|now apply En]. assert (G : forall ls s s', gone_upto n s -> drun n iv s ls = DTo s' -> gone_upto n s').
    { clear. induction ls as [|l ls IH]; intros s s' G E; cbn [drun] in E; [now injection E as <-|]. destruct (dstep n iv s l) as [s1| |] eqn:E1; try discriminate E. apply (IH s1); [|exact E]. eapply gone_step; eauto. }
    specialize (G ls dst_new s I R). unfold gone_upto in G. rewrite M in G. now apply G.
  - intros l. assert (Gt : forall k tl, mover tl -> thread n s k tl = DNo). { intros k tl Mv. unfold thread. destruct (Nat.ltb_spec k n) as [K|K]; [|reflexivity]. now rewrite (ended_still _ tl (En k K) Mv). }
    destruct l as [early late|early late| | |k w o|k sp ms th]; cbn [dstep]; rewrite ?M; try reflexivity; now apply Gt.
Qed.
(** C113: in the life of a pipeline each daemon behaves as a timer with one user: its sleeps are as asked for and none of its executions begins after it was asked to stop. *)
Theorem C113_each : forall n iv ls s k, drun n iv dst_new ls = DTo s -> punctual (t_log (d_ts s k)) /\ no_late_shot (t_log (d_ts s k)).
Proof. intros n iv ls s k R. assert (I := di_inv n s k (drun_inv n iv ls _ _ (dinv_new n) R)). split; [apply (ti_p _ I)|apply (ti_s _ I)]. Qed.

(** * The hypotheses are met *)
Definition c113_iv (k : nat) : Z := Z.of_nat (10 * k + 10).
Definition c113_up : list dlab := [DlInit false false; DlNext; DlNext; DlThread 0 false false; DlNext].
Definition c113_shot (k : nat) : list dlab := [DlThread k false false; DlThread k false true; DlThread k false false].
Definition c113_down : list dlab := [DlDestroy false false; DlNext; DlNext; DlTask 0 3 0 false; DlThread 0 false false; DlNext; DlNext; DlNext; DlThread 1 false false; DlNext; DlNext].
Example C113_between_case : exists s s', drun 2 c113_iv dst_new (c113_up ++ c113_shot 0) = DTo s /\ d_main s = DOut /\ d_init s = true /\ working (d_log s) = true /\ clean (d_log s) /\ shots (t_log (d_ts s 0)) = 1 /\
  drun 2 c113_iv s c113_down = DTo s' /\ d_main s' = DOut /\ d_init s' = false /\ working (d_log s') = false /\ clean (d_log s').
Proof.
  eexists. eexists. split; [vm_compute; reflexivity|]. split; [reflexivity|]. split; [reflexivity|]. split; [reflexivity|]. split; [split; intros [X|[]]; discriminate X|]. split; [reflexivity|].
  split; [vm_compute; reflexivity|]. split; [reflexivity|]. split; [reflexivity|]. split; [reflexivity|]. split; intros [X|[X|[]]]; discriminate X.
Qed.
Lemma care_run n iv ls : forall s s', with_care n iv s -> drun n iv s ls = DTo s' -> ~ In DlDelete ls -> with_care n iv s'.
Proof. induction ls as [|l ls IH]; intros s s' W R Nd; cbn [drun] in R; [now injection R as <-|]. destruct (dstep n iv s l) as [s1| |] eqn:E; try discriminate R. apply (IH s1); [|exact R|intros H; apply Nd; now right]. eapply wc_step; eauto. intros ->. exfalso. apply Nd. now left. Qed.
Example C113_deleted_case : exists s s', drun 2 c113_iv dst_new (c113_up ++ c113_shot 0 ++ c113_down) = DTo s /\ with_care 2 c113_iv s /\ drun 2 c113_iv s [DlDelete; DlNext; DlNext; DlNext] = DTo s' /\ with_care 2 c113_iv s' /\ d_main s' = DDelStop 1.
Proof.
  eexists. eexists. split; [vm_compute; reflexivity|]. match goal with |- with_care _ _ ?z /\ _ => assert (W : with_care 2 c113_iv z) end.
  { eapply care_run with (ls := c113_up ++ c113_shot 0 ++ c113_down); [apply wc_new|vm_compute; reflexivity|]. intros H. cbn in H. repeat (destruct H as [H|H]; [discriminate H|]). exact H. }
  split; [exact W|]. split; [vm_compute; reflexivity|]. split; [|reflexivity].
  eapply care_run with (ls := [DlNext; DlNext; DlNext]); [eapply wc_step with (l := DlDelete); [exact W|reflexivity|reflexivity]|vm_compute; reflexivity|]. intros H. cbn in H. repeat (destruct H as [H|H]; [discriminate H|]). exact H.
Qed.
Example C113_gone_case : exists s, drun 2 c113_iv dst_new (c113_up ++ c113_shot 0 ++ c113_down ++ [DlDelete; DlNext; DlNext; DlNext; DlNext; DlNext]) = DTo s /\ d_main s = DGone.
Proof. eexists. split; vm_compute; reflexivity. Qed.
Example C113_refuted_case : exists s, drun 2 c113_iv dst_new c113_up = DTo s /\ d_main s = DOut /\ working (d_log s) = true /\ (forall l, In l c113_up -> throws_in 0 l = false) /\ drun 2 c113_iv s (c113_shot 0 ++ [DlDelete; DlNext]) = DUndef.
Proof. eexists. split; [vm_compute; reflexivity|]. split; [reflexivity|]. split; [reflexivity|]. split; [|reflexivity]. intros l H. cbn in H. repeat (destruct H as [<-|H]; [reflexivity|]). destruct H. Qed.
(** The daemon is executed after its destructor has begun, before its timer is stopped. *)
Example C113_late_case : exists s, drun 2 c113_iv dst_new c113_up = DTo s /\ drun 2 c113_iv s ([DlDelete; DlNext] ++ c113_shot 0) = DUndef.
Proof. eexists. split; vm_compute; reflexivity. Qed.
Print Assumptions C113_between.
Print Assumptions C113_executed.
Print Assumptions C113_while_init_partial.
Print Assumptions C113_init_refuted.
Print Assumptions C113_destroy_refuted.
Print Assumptions C113_deleted_partial.
Print Assumptions C113_deleted_refuted.
Print Assumptions C113_returns.
Print Assumptions C113_gone.
Print Assumptions C113_each.
