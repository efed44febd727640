(** Property theorems on timeouts. *)
From Verif Require Import TimeoutSpec TimeoutProofs.
Local Open Scope nat_scope.
Local Open Scope list_scope.

(** * C36 *)
(** The result of a run: OK exactly if every body whose end was awaited in time ended well, no element with AS_ERROR was late, and every late body with HOLD_BY_PIPELINE ended well. *)
Theorem C36_result_partial : forall n st up ls s, top_level n up -> t_run (t_new n st up) ls = Some s -> forall a x b, t_log s = a ++ TEnd x :: b -> no_throw b -> no_again (t_this b) ->
  (x = EndOk <-> (forall e j r, e < n -> In (TUse e j r) (t_this b) -> r = ROk) /\ (forall e j, e < n -> st e = AsError -> ~ In (TLate e j) (t_this b)) /\
                 (forall e j, e < n -> st e = HoldByPipeline -> In (TLate e j) (t_this b) -> In (TRet j ROk) b)).
Proof. intros n st up ls s TL E a x b L T A. pose proof (tinv_run n st up TL ls _ s (tinv_new n st up) E) as I. apply (ti_end _ _ _ _ I a x b L T A). Qed.
(** A late element fails the run under AS_ERROR, whatever else happens. *)
Theorem C36_as_error : forall n st up ls s, t_run (t_new n st up) ls = Some s -> forall a x b, t_log s = a ++ TEnd x :: b -> forall e j, st e = AsError -> In (TLate e j) (t_this b) -> x <> EndOk.
Proof.
  intros n st up ls s E a x b L e j S H ->. assert (I0 : tinv2 (t_new n st up)) by (constructor; cbn; try easy; intros a' b' X; destruct a'; discriminate). destruct (tinv2_run ls _ s I0 E) as [[_ _ I] Q]. rewrite Q in I. now apply (I a b L e j).
Qed.
(** Under HOLD_BY_PIPELINE the run returns only after the late body has ended. *)
Theorem C36_hold_waits_partial : forall n st up ls s, top_level n up -> t_run (t_new n st up) ls = Some s -> forall a x b, t_log s = a ++ TEnd x :: b -> no_throw b -> no_again (t_this b) -> x <> EndThrow ->
  forall e j, e < n -> st e = HoldByPipeline -> In (TLate e j) (t_this b) -> exists r, In (TRet j r) b.
Proof. intros n st up ls s TL E a x b L T A. pose proof (tinv_run n st up TL ls _ s (tinv_new n st up) E) as I. apply (ti_end _ _ _ _ I a x b L T A). Qed.
(** In a run that ends OK every element is executed exactly once, and one that was not late ended well. *)
Theorem C36_executed_once_partial : forall n st up ls s, top_level n up -> t_run (t_new n st up) ls = Some s -> forall a b, t_log s = a ++ TEnd EndOk :: b -> no_throw b -> no_again (t_this b) ->
  forall e, e < n -> (exists j, filter (is_body e) (t_this b) = [TBody e j]) /\ ((exists j, In (TLate e j) (t_this b)) \/ exists j, In (TUse e j ROk) (t_this b)).
Proof. intros n st up ls s TL E a b L T A. pose proof (tinv_run n st up TL ls _ s (tinv_new n st up) E) as I. apply (ti_end _ _ _ _ I a EndOk b L T A). easy. Qed.
(** Whatever was late in earlier runs, no element of the pipeline is ever passed over, as long as no run ended by an exception. *)
Theorem C36_runnable_again_partial : forall n st up ls s, top_level n up -> t_run (t_new n st up) ls = Some s -> no_throw (t_log s) -> forall e, ~ In (TSkip e) (t_log s).
Proof. intros n st up ls s TL E. apply (ti_skip _ _ _ _ (tinv_run n st up TL ls _ s (tinv_new n st up) E)). Qed.
(** While a group is late (strategies other than AS_ERROR), no element inside it starts. *)
Theorem C36_children_stop : forall n st up ls s, top_level n up -> t_run (t_new n st up) ls = Some s -> forall a c b, t_log s = a ++ TChild c :: b -> forall g, In g (up c) -> late_now st g b = false.
Proof. intros n st up ls s TL E. apply (ti_child _ _ _ _ (tinv_run n st up TL ls _ s (tinv_new n st up) E)). Qed.
(** The only ways in which a run ends by an exception: a late body with HOLD_BY_PIPELINE ended by one. *)
Theorem C36_exception_partial : forall n st up ls s, top_level n up -> t_run (t_new n st up) ls = Some s -> forall a x b, t_log s = a ++ TEnd x :: b -> no_throw b -> no_again (t_this b) ->
  (x = EndThrow <-> exists e j, e < n /\ st e = HoldByPipeline /\ In (TLate e j) (t_this b) /\ In (TRet j RThrow) b).
Proof. intros n st up ls s TL E a x b L T A. pose proof (tinv_run n st up TL ls _ s (tinv_new n st up) E) as I. apply (ti_end _ _ _ _ I a x b L T A). Qed.

(** A pipeline of four elements of which the last is a group with element 4 inside *)
Definition st4 (e : nat) : strategy := match e with 0 => Sync | 1 => AsError | 2 => HoldByPipeline | _ => NoHold end.
Definition up4 (c : nat) : list nat := match c with 4 => [3] | _ => [] end.
Lemma up4_top : top_level 4 up4.
Proof. intros e H. do 4 (destruct e; [easy|]). lia. Qed.
(** The third and the fourth are late; the third ends with [r] after the elements, the fourth does not end. *)
Definition sched4 (r : outcome) := [TLRun; TLElem 0 true; TLElem 1 true; TLElem 2 true; TLElem 3 true; TLJob 1 ROk; TLJob 2 ROk; TLJob 3 ROk; TLJob 0 ROk; TLJob 1 ROk; TLElem 0 true; TLElem 1 true; TLElem 2 true; TLElem 3 true; TLChild 4;
  TLElem 0 false; TLElem 1 false; TLElem 2 false; TLElem 3 false; TLOwner; TLOwner; TLJob 2 r; TLOwner; TLOwner; TLOwner].
Example C36_result_ex : exists s b, t_run (t_new 4 st4 up4) (sched4 ROk) = Some s /\ t_log s = [] ++ TEnd EndOk :: b /\ no_throw b /\ no_again (t_this b) /\ In (TLate 2 2) (t_this b) /\ In (TLate 3 3) (t_this b) /\ In (TUse 1 1 ROk) (t_this b) /\ In (TChildSkip 4) b.
Proof. do 2 eexists. split; [vm_compute; reflexivity|]. split; [reflexivity|]. cbn. unfold no_throw, no_again. cbn. intuition discriminate. Qed.
(** The late error is part of the result. *)
Example C36_hold_waits_ex : exists s b, t_run (t_new 4 st4 up4) (sched4 RErr) = Some s /\ t_log s = [] ++ TEnd EndErr :: b /\ no_throw b /\ no_again (t_this b) /\ In (TLate 2 2) (t_this b).
Proof. do 2 eexists. split; [vm_compute; reflexivity|]. split; [reflexivity|]. cbn. unfold no_throw, no_again. cbn. intuition discriminate. Qed.
Example C36_as_error_ex : exists s b, t_run (t_new 2 st4 (fun _ => [])) [TLRun; TLElem 0 true; TLElem 1 true; TLJob 0 ROk; TLElem 0 true; TLElem 0 false; TLElem 1 true; TLOwner; TLOwner; TLOwner] = Some s /\ t_log s = [] ++ TEnd EndErr :: b /\ no_throw b /\ no_again (t_this b) /\ In (TLate 1 1) (t_this b).
Proof. do 2 eexists. split; [vm_compute; reflexivity|]. split; [reflexivity|]. cbn. unfold no_throw, no_again. cbn. intuition discriminate. Qed.
(** A second run after the first: all four are executed again, and element 4 may start again. *)
Example C36_runnable_again_ex : exists s, t_run (t_new 4 st4 up4) (sched4 ROk ++ [TLRun; TLElem 2 true; TLElem 3 true; TLChild 4]) = Some s /\ no_throw (t_log s) /\ t_this (t_log s) = [TChild 4; TBody 3 5; TBody 2 4].
Proof. eexists. split; [vm_compute; reflexivity|]. split; [|reflexivity]. unfold no_throw. cbn. intuition discriminate. Qed.
Example C36_children_stop_ex : exists s a b, t_run (t_new 4 st4 up4) (sched4 ROk ++ [TLRun; TLElem 2 true; TLElem 3 true; TLChild 4]) = Some s /\ t_log s = a ++ TChild 4 :: b /\ In 3 (up4 4).
Proof. eexists. exists []. eexists. split; [vm_compute; reflexivity|]. split; [reflexivity|]. cbn. tauto. Qed.

(** An exception thrown by a late body with HOLD_BY_PIPELINE leaves run() itself, and the element, whose state stays TIMEOUT, is silently passed over by the next run, which returns OK. *)
Theorem C36_late_exception_refuted : exists n st up ls s b e, top_level n up /\ t_run (t_new n st up) ls = Some s /\ t_log s = TEnd EndOk :: b /\ In (TEnd EndThrow) b /\ e < n /\ st e = HoldByPipeline /\ forall j, ~ In (TBody e j) (t_this b).
Proof.
  exists 1, (fun _ => HoldByPipeline), (fun _ => []), [TLRun; TLElem 0 true; TLJob 0 ROk; TLElem 0 true; TLElem 0 false; TLOwner; TLJob 0 RThrow; TLOwner; TLRun; TLElem 0 true; TLOwner; TLOwner; TLOwner]. do 2 eexists. exists 0. split; [easy|]. split; [vm_compute; reflexivity|]. split; [reflexivity|]. split; [cbn; tauto|]. split; [lia|]. split; [easy|]. intros j. cbn. intuition discriminate.
Qed.
(** If isHold asks for a repetition of a late element with HOLD_BY_PIPELINE, the earlier body is forgotten: the run returns OK while it is still being executed. *)
Theorem C36_hold_repeated_refuted : exists n st up ls s b e j, top_level n up /\ t_run (t_new n st up) ls = Some s /\ t_log s = TEnd EndOk :: b /\ e < n /\ st e = HoldByPipeline /\ In (TLate e j) (t_this b) /\ (forall r, ~ In (TRet j r) b) /\ t_job s j = JRunning.
Proof.
  exists 1, (fun _ => HoldByPipeline), (fun _ => []), [TLRun; TLElem 0 true; TLJob 0 ROk; TLElem 0 true; TLElem 0 true; TLJob 1 ROk; TLJob 1 ROk; TLElem 0 true; TLElem 0 false; TLOwner; TLOwner; TLOwner]. eexists. eexists. exists 0, 0. split; [easy|]. split; [vm_compute; reflexivity|]. split; [reflexivity|]. split; [lia|]. split; [easy|]. split; [cbn; tauto|]. split; [|reflexivity]. intros r. cbn. intuition discriminate.
Qed.

(** * C81 *)
(** A run that has returned may have left bodies behind: for each of AS_ERROR and NO_HOLD, and the next run executes the element while its earlier body is still being executed. *)
Theorem C81_bodies_left_behind_refuted : forall g, g = AsError \/ g = NoHold -> exists n st up ls s j1 j2, top_level n up /\ t_run (t_new n st up) ls = Some s /\ st 0 = g /\ 0 < n /\ t_own s j1 = 0 /\ t_own s j2 = 0 /\ j1 <> j2 /\ t_job s j1 = JRunning /\ t_job s j2 = JRunning /\ (exists x, In (TEnd x) (t_log s) /\ x <> EndThrow).
Proof.
  intros g [-> | ->].
  - exists 1, (fun _ => AsError), (fun _ => []), [TLRun; TLElem 0 true; TLJob 0 ROk; TLElem 0 true; TLOwner; TLOwner; TLOwner; TLRun; TLElem 0 true; TLJob 1 ROk]. eexists. exists 0, 1. split; [easy|]. split; [vm_compute; reflexivity|]. do 7 (split; [first [easy|lia]|]). exists EndErr. cbn. split; [tauto|easy].
  - exists 1, (fun _ => NoHold), (fun _ => []), [TLRun; TLElem 0 true; TLJob 0 ROk; TLElem 0 true; TLElem 0 false; TLOwner; TLOwner; TLOwner; TLRun; TLElem 0 true; TLJob 1 ROk]. eexists. exists 0, 1. split; [easy|]. split; [vm_compute; reflexivity|]. do 7 (split; [first [easy|lia]|]). exists EndOk. cbn. split; [tauto|easy].
Qed.
(** All other bodies of a run have ended when it returns. *)
Theorem C81_bodies_ended_partial : forall n st up ls s, top_level n up -> t_run (t_new n st up) ls = Some s -> forall a x b, t_log s = a ++ TEnd x :: b -> no_throw b -> no_again (t_this b) -> x <> EndThrow ->
  forall e j, e < n -> In (TBody e j) (t_this b) -> (exists r, In (TRet j r) b) \/ (In (TLate e j) (t_this b) /\ (st e = AsError \/ st e = NoHold)).
Proof. intros n st up ls s TL E a x b L T A. pose proof (tinv_run n st up TL ls _ s (tinv_new n st up) E) as I. apply (ti_end _ _ _ _ I a x b L T A). Qed.

Print Assumptions C36_result_partial.
Print Assumptions C36_as_error.
Print Assumptions C36_hold_waits_partial.
Print Assumptions C36_executed_once_partial.
Print Assumptions C36_runnable_again_partial.
Print Assumptions C36_children_stop.
Print Assumptions C36_exception_partial.
Print Assumptions C36_late_exception_refuted.
Print Assumptions C36_hold_repeated_refuted.
Print Assumptions C81_bodies_left_behind_refuted.
Print Assumptions C81_bodies_ended_partial.
