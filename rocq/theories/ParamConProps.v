(** C103: parameters used by elements that run at the same time. *)
From Verif Require Import ParamConModel ParamConSpec ParamSpec ParamProofs ParamConProofs.
From Coq Require Import Lia.
Local Open Scope nat_scope.
Local Open Scope list_scope.

Lemma reached_inv N s : reached N s -> cinv N s.
Proof. intros (ls & E). eapply crun_inv; [apply cinv_new|exact E]. Qed.

(** Every execution of any number of threads that stays defined is equivalent to the same calls made one after the other:
    each call takes effect once, between its start and its return, with the answer that the calls before it require.
    Missing for the full property: executions can be undefined, see [C103_race_refuted] and [C103_use_refuted]. *)
Theorem C103_atomic_partial : forall N ls s, crun N cs_new ls = CRun s -> atomic (cs_tr s) /\ cs_ps s = p_after (c_ops (cs_tr s)).
Proof.
  intros N ls s E. pose proof (crun_inv _ _ _ _ (cinv_new N) E) as I. split; [|apply I]. split; [|apply I].
  intro t. eapply at_pc_turn, (ci_pc I).
Qed.
(** Creating, removing and listing from several threads is always defined, as long as nobody looks a parameter up. *)
Theorem C103_locked_partial : forall N s ls, reached N s -> quiet s ->
  (forall o, calls ls o -> is_get o = false) -> (forall t obj, ~ In (LUse t obj) ls) -> crun N s ls <> CUndef.
Proof.
  intros N s ls R [_ Q] C U. apply locked_run; [now apply reached_inv| |exact C|exact U]. intros t o H. rewrite Q in H. discriminate.
Qed.
(** When the parameters were made before, every mix of lookups, listings and repeated creations is defined, the objects got
    may be used throughout, and every lookup gives the object that was there at the start. *)
Theorem C103_prepared_partial : forall N s ls, reached N s -> quiet s ->
  (forall o, calls ls o -> prepared (c_ops (cs_tr s)) o) ->
  (forall t obj, In (LUse t obj) ls -> exists k ty, alive (c_ops (cs_tr s)) k ty obj) ->
  crun N s ls <> CUndef /\
  forall s', crun N s ls = CRun s' -> exists new, accs (cs_tr s') = accs (cs_tr s) ++ new /\
    forall t e k ty a, In (t, PGet e k ty, a) new ->
      (exists obj, alive (c_ops (cs_tr s)) k ty obj /\ a = AObj (Some obj)) \/ ((forall obj, ~ alive (c_ops (cs_tr s)) k ty obj) /\ a = AObj None).
Proof.
  intros N s ls R [_ Q] C U. pose proof (reached_inv N s R) as I. set (h := c_ops (cs_tr s)) in *.
  pose proof (pinv_all h) as PI. pose proof (dinv_all h) as DI. pose proof (ci_ps I) as PS. fold h in PS. rewrite <- PS in PI, DI.
  assert (MF : forall k p, In (k, p) (ps_map (cs_ps s)) -> ~ In (p_obj p) (ps_freed (cs_ps s))).
  { intros k [ty n nm] H. apply (di_alive _ _ DI k ty n). apply (pi_alive _ _ PI). exists nm. apply in_pfind; [apply (pi_nodup _ _ PI)|exact H]. }
  destruct (calm_run N (ps_map (cs_ps s)) (ps_freed (cs_ps s)) ls MF s) as [A B].
  - split; [reflexivity|]. split; [reflexivity|]. split; [intros t o H; rewrite Q in H; discriminate|]. split; [intro t; now rewrite Q|]. intros t e k ty obj H. rewrite Q in H. discriminate.
  - intros o H. specialize (C o H). unfold harmless. destruct o; cbn in *; try contradiction; try reflexivity.
    + destruct (pfind k (ps_map (cs_ps s))) eqn:F; [reflexivity|]. now apply (pi_free _ _ PI) in F.
    + destruct (pfind k (ps_map (cs_ps s))) eqn:F; [reflexivity|]. now apply (pi_free _ _ PI) in F.
  - intros t obj H. destruct (U t obj H) as (k & ty & AL). exact (di_alive _ _ DI k ty obj AL).
  - split; [exact A|]. intros s' E. destruct (B s' E) as (_ & d & D & X). exists d. split; [exact D|]. intros t e k ty a H. rewrite (X _ _ _ _ _ H).
    destruct (pfind k (ps_map (cs_ps s))) as [[ty' n nm]|] eqn:F; cbn [p_type p_obj].
    + destruct (Nat.eqb_spec ty ty') as [->|NE].
      * left. exists n. split; [|reflexivity]. apply (pi_alive _ _ PI). now exists nm.
      * right. split; [|reflexivity]. intros obj AL. apply (pi_alive _ _ PI) in AL. destruct AL as (nm' & AL). rewrite F in AL. congruence.
    + right. split; [|reflexivity]. intros obj AL. apply (pi_alive _ _ PI) in AL. destruct AL as (nm' & AL). rewrite F in AL. discriminate.
Qed.
(** The calls never block each other for good: while a thread is in a call some thread can go on, and after at most four
    steps for every thread all calls have returned. *)
Theorem C103_live_partial : forall N s, reached N s ->
  ((exists t, cs_pc s t <> Idle) -> exists u, cstep N s (LGo u) <> CStuck) /\
  forall ts s', crun N s (map LGo ts) = CRun s' -> length ts <= 4 * N.
Proof.
  intros N s R. pose proof (reached_inv N s R) as I. split; [intros (t & T); eapply go_enabled; eassumption|].
  intros ts s' E. pose proof (go_run N ts s s' I E). pose proof (total_bound N s). lia.
Qed.
(** In every history in which no call is under way: a lookup (of any parameter) while another thread makes a new one is a
    data race. *)
Theorem C103_race_refuted : forall N s t1 t2 k ty e k' ty', quiet s -> free (c_ops (cs_tr s)) k -> reached N s -> t1 < N -> t2 < N -> t1 <> t2 ->
  crun N s [LCall t1 (PCreate k ty); LCall t2 (PGet e k' ty'); LGo t1; LGo t1; LGo t2] = CUndef.
Proof.
  intros N s t1 t2 k ty e k' ty' [QL Q] F R L1 L2 NE. pose proof (reached_inv N s R) as I.
  assert (FN : pfind k (ps_map (cs_ps s)) = None) by (rewrite (ci_ps I); now apply (pi_free _ _ (pinv_all _))).
  cbn [crun cstep]. rewrite (proj2 (Nat.ltb_lt _ _) L1), (proj2 (Nat.ltb_lt _ _) L2), Q. cbn [andb allowed cs_pc cs_ps cs_lock cs_tr].
  rewrite (upd_other (cs_pc s) t1 _ t2) by congruence. rewrite Q. cbn [cs_pc cs_ps cs_lock cs_tr is_get].
  rewrite (upd_other _ t2 _ t1) by congruence. rewrite upd_same. cbn [is_get]. rewrite QL.
  assert (OT : forall u, u <> t1 -> u <> t2 -> upd (upd (cs_pc s) t1 (Want (PCreate k ty))) t2 (Want (PGet e k' ty')) u = Idle) by (intros u U1 U2; rewrite !upd_other by congruence; apply Q).
  rewrite writer_false.
  2:{ intros u U. cbn [cs_pc]. destruct (Nat.eq_dec u t2) as [->|U2]; [now rewrite upd_same|now rewrite OT]. }
  cbn [cs_pc cs_ps cs_lock cs_tr]. rewrite upd_same. cbn [changes]. rewrite FN.
  rewrite busy_false.
  2:{ intros u U. cbn [cs_pc]. rewrite (upd_other _ t1 _ u) by congruence. destruct (Nat.eq_dec u t2) as [->|U2]; [now rewrite upd_same|now rewrite OT]. }
  unfold set_pc. cbn [cs_pc cs_ps cs_lock cs_tr]. rewrite !(upd_other _ t1 _ t2) by congruence. rewrite upd_same. cbn [is_get].
  replace (writer N _ t2) with true; [reflexivity|]. symmetry. unfold writer. apply existsb_exists. exists t1. split; [now apply others_in|]. cbn [cs_pc]. now rewrite upd_same.
Qed.
(** The other way round: a lookup that is under way when another thread begins to insert its new parameter. *)
Theorem C103_overtaken_refuted : forall N s t1 t2 k ty e k' ty', quiet s -> free (c_ops (cs_tr s)) k -> reached N s -> t1 < N -> t2 < N -> t1 <> t2 ->
  crun N s [LCall t1 (PCreate k ty); LCall t2 (PGet e k' ty'); LGo t2; LGo t1; LGo t1] = CUndef.
Proof.
  intros N s t1 t2 k ty e k' ty' [QL Q] F R L1 L2 NE. pose proof (reached_inv N s R) as I.
  assert (FN : pfind k (ps_map (cs_ps s)) = None) by (rewrite (ci_ps I); now apply (pi_free _ _ (pinv_all _))).
  cbn [crun cstep]. rewrite (proj2 (Nat.ltb_lt _ _) L1), (proj2 (Nat.ltb_lt _ _) L2), Q. cbn [andb allowed cs_pc cs_ps cs_lock cs_tr].
  rewrite (upd_other (cs_pc s) t1 _ t2) by congruence. rewrite Q. cbn [cs_pc cs_ps cs_lock cs_tr is_get].
  rewrite upd_same. cbn [is_get].
  assert (OT : forall u, u <> t1 -> u <> t2 -> upd (upd (cs_pc s) t1 (Want (PCreate k ty))) t2 (Want (PGet e k' ty')) u = Idle) by (intros u U1 U2; rewrite !upd_other by congruence; apply Q).
  rewrite writer_false.
  2:{ intros u U. cbn [cs_pc]. destruct (Nat.eq_dec u t1) as [->|U1]; [rewrite upd_other by congruence; now rewrite upd_same|now rewrite OT]. }
  unfold set_pc. cbn [cs_pc cs_ps cs_lock cs_tr]. rewrite !(upd_other _ t2 _ t1) by congruence. rewrite upd_same. cbn [is_get]. rewrite QL.
  rewrite writer_false.
  2:{ intros u U. cbn [cs_pc]. destruct (Nat.eq_dec u t2) as [->|U2]; [now rewrite upd_same|]. rewrite upd_other by congruence. now rewrite OT. }
  cbn [cs_pc cs_ps cs_lock cs_tr]. rewrite upd_same. cbn [changes]. rewrite FN.
  replace (busy N _ t1) with true; [reflexivity|]. symmetry. unfold busy. apply existsb_exists. exists t2. split; [apply others_in; split; [exact L2|congruence]|]. cbn [cs_pc].
  rewrite upd_other by congruence. now rewrite upd_same.
Qed.
(** In every history in which no call is under way: an object that one thread got is deleted by the removal of another, and
    its use is undefined. *)
Theorem C103_use_refuted : forall N s t1 t2 e k ty obj, quiet s -> reached N s -> alive (c_ops (cs_tr s)) k ty obj -> t1 < N -> t2 < N -> t1 <> t2 ->
  crun N s ([LCall t1 (PGet e k ty); LGo t1; LGo t1; LGo t1] ++ [LCall t2 (PRemove k); LGo t2; LGo t2; LGo t2; LGo t2] ++ [LUse t1 obj]) = CUndef.
Proof.
  intros N s t1 t2 e k ty obj [QL Q] R AL L1 L2 NE. pose proof (reached_inv N s R) as I.
  pose proof (pinv_all (c_ops (cs_tr s))) as PI. pose proof (dinv_all (c_ops (cs_tr s))) as DI. pose proof (di_alive _ _ DI k ty obj AL) as NF. apply (pi_alive _ _ PI) in AL. destruct AL as (nm & F).
  rewrite <- (ci_ps I) in F, NF.
  assert (W : forall s1 t, (forall u, u <> t -> cs_pc s1 u = Idle) -> writer N s1 t = false /\ busy N s1 t = false).
  { intros s1 t H. split; [apply writer_false; intros u U; now rewrite H|apply busy_false; intros u U; now rewrite H]. }
  (* the lookup *)
  assert (G : exists s1, crun N s [LCall t1 (PGet e k ty); LGo t1; LGo t1; LGo t1] = CRun s1 /\ quiet s1 /\ ps_map (cs_ps s1) = ps_map (cs_ps s) /\ In (t1, PGet e k ty, AObj (Some obj)) (accs (cs_tr s1))).
  { cbn [crun cstep]. rewrite (proj2 (Nat.ltb_lt _ _) L1), Q. cbn [andb allowed cs_pc cs_ps cs_lock cs_tr]. rewrite upd_same. cbn [is_get].
    match goal with |- context [writer N ?s1 t1] => rewrite (proj1 (W s1 t1 ltac:(intros u U; cbn [cs_pc]; rewrite !upd_other by exact U; auto))) end. unfold set_pc. cbn [cs_pc cs_ps cs_lock cs_tr]. rewrite upd_same. cbn [changes].
    unfold take_effect. cbn [p_step cs_ps cs_tr]. unfold w_get, pm_get. rewrite F. cbn [p_type p_obj]. rewrite Nat.eqb_refl. cbn [cs_pc cs_ps cs_lock cs_tr]. rewrite upd_same. cbn [p_obj].
    match goal with |- context [memb obj ?l] => destruct (memb obj l) eqn:M end; [apply memb_in in M; contradiction|]. eexists. split; [reflexivity|]. split; [|split].
    - split; [exact QL|]. intro u. cbn [cs_pc]. destruct (Nat.eq_dec u t1) as [->|U]; [now rewrite upd_same|now rewrite !upd_other by exact U].
    - reflexivity.
    - cbn [cs_tr]. rewrite !accs_snoc. cbn. rewrite !in_app_iff. cbn. tauto. }
  destruct G as (s1 & E1 & [QL1 Q1] & M1 & IN1). rewrite crun_app, E1. rewrite <- M1 in F. clear E1.
  (* the removal *)
  assert (G : exists s2, crun N s1 [LCall t2 (PRemove k); LGo t2; LGo t2; LGo t2; LGo t2] = CRun s2 /\ In obj (ps_freed (cs_ps s2)) /\ In (t1, PGet e k ty, AObj (Some obj)) (accs (cs_tr s2))).
  { cbn [crun cstep]. rewrite (proj2 (Nat.ltb_lt _ _) L2), Q1. cbn [andb allowed cs_pc cs_ps cs_lock cs_tr]. rewrite upd_same. cbn [is_get]. rewrite QL1.
    match goal with |- context [writer N ?s1 t2] => rewrite (proj1 (W s1 t2 ltac:(intros u U; cbn [cs_pc]; rewrite !upd_other by exact U; auto))) end. cbn [cs_pc cs_ps cs_lock cs_tr]. rewrite upd_same. cbn [changes]. rewrite F.
    match goal with |- context [busy N ?s1 t2] => rewrite (proj2 (W s1 t2 ltac:(intros u U; cbn [cs_pc]; rewrite !upd_other by exact U; auto))) end. unfold set_pc. cbn [cs_pc cs_ps cs_lock cs_tr]. rewrite upd_same.
    unfold take_effect. cbn [p_step cs_ps cs_tr]. unfold pm_remove. rewrite F. cbn [cs_pc cs_ps cs_lock cs_tr]. rewrite upd_same. eexists. split; [reflexivity|]. split.
    - cbn. now left.
    - cbn [cs_tr]. rewrite !accs_snoc. rewrite !in_app_iff. tauto. }
  destruct G as (s2 & E2 & FR & IN2). rewrite crun_app, E2. cbn [crun cstep].
  replace (existsb _ (accs (cs_tr s2))) with true.
  - replace (memb obj _) with true; [reflexivity|]. symmetry. now apply memb_in.
  - symmetry. apply existsb_exists. exists (t1, PGet e k ty, AObj (Some obj)). split; [exact IN2|]. now rewrite !Nat.eqb_refl.
Qed.

(** Three threads, all in the middle of something; the first call that got the mutex made the object. *)
Definition busy_run : list clabel :=
  [LCall 0 (PCreate 5 1); LCall 1 (PCreate 5 1); LCall 2 PKeys; LGo 1; LGo 1; LGo 1; LGo 1; LGo 0; LGo 0; LCall 1 (PGet 7 5 1); LGo 1; LGo 1; LGo 0; LGo 2; LGo 2].
Example C103_atomic_nonvacuous : exists s, crun 3 cs_new busy_run = CRun s /\
  accs (cs_tr s) = [(1, PCreate 5 1, AOk); (0, PCreate 5 1, AOk); (1, PGet 7 5 1, AObj (Some 0)); (2, PKeys, AKeys [5])].
Proof. eexists. split; [vm_compute; reflexivity|reflexivity]. Qed.
Definition prepared_run : list clabel := [LCall 0 (PCreate 5 1); LGo 0; LGo 0; LGo 0; LGo 0; LCall 1 (PCreate 6 2); LGo 1; LGo 1; LGo 1; LGo 1].
Example C103_prepared_nonvacuous : exists s, crun 3 cs_new prepared_run = CRun s /\ quiet s /\ alive (c_ops (cs_tr s)) 6 2 1 /\ free (c_ops (cs_tr s)) 9 /\
  (exists s', crun 3 s [LCall 0 (PGet 7 6 2); LCall 1 (PGet 8 6 2); LCall 2 (PCreate 6 2); LGo 2; LGo 0; LGo 1; LGo 1; LGo 1; LUse 1 1; LGo 0; LGo 2] = CRun s' /\
     accs (cs_tr s') = accs (cs_tr s) ++ [(1, PGet 8 6 2, AObj (Some 1)); (0, PGet 7 6 2, AObj (Some 1)); (2, PCreate 6 2, AOk)]) /\
  ~ free (c_ops (cs_tr s)) 6.
Proof.
  destruct (crun 3 cs_new prepared_run) as [s| |] eqn:E; [|vm_compute in E; discriminate|vm_compute in E; discriminate]. exists s. split; [reflexivity|].
  pose proof (crun_inv _ _ _ _ (cinv_new 3) E) as I. pose proof (pinv_all (c_ops (cs_tr s))) as PI.
  assert (A : alive (c_ops (cs_tr s)) 6 2 1) by (apply (pi_alive _ _ PI); rewrite <- (ci_ps I); vm_compute in E; injection E as <-; now exists (Some 6)).
  split; [|split; [|split; [|split]]].
  - vm_compute in E. injection E as <-. split; [reflexivity|]. intro t. cbn. now destruct t as [|[|t]].
  - exact A.
  - apply (pi_free _ _ PI). rewrite <- (ci_ps I). vm_compute in E. injection E as <-. reflexivity.
  - vm_compute in E. injection E as <-. eexists. split; [vm_compute; reflexivity|reflexivity].
  - exact (alive_not_free _ _ _ _ A).
Qed.
(** Before it returns, a lookup reads the object (its backtrace): a removal in between makes that undefined as well. *)
Example C103_get_remove : crun 3 cs_new (prepared_run ++ [LCall 0 (PGet 7 6 2); LGo 0; LGo 0; LCall 1 (PRemove 6); LGo 1; LGo 1; LGo 1; LGo 1; LGo 0]) = CUndef.
Proof. reflexivity. Qed.
Print Assumptions C103_atomic_partial.
Print Assumptions C103_locked_partial.
Print Assumptions C103_prepared_partial.
Print Assumptions C103_live_partial.
Print Assumptions C103_race_refuted.
Print Assumptions C103_use_refuted.
