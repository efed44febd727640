(** Property theorems on fences. *)
From Verif Require Import FenceSpec FenceProofs.
Local Open Scope nat_scope.
Local Open Scope list_scope.

(** * C87 *)
(** A fence placed after the elements it waits for returns only when the latest body of each of them has ended, unless one of these bodies ended by an exception. *)
Theorem C87_waits_partial : forall n st up nf wt af ls s, fences_after n nf st wt af -> f_run (f_new n st up nf wt af) ls = Some s -> forall f ok, f < nf -> f_pc s f = FDone ok ->
  (forall e j, In e (wt f) -> latest s e j -> exists r, ended s j r) \/ (ok = false /\ exists e j, In e (wt f) /\ (latest s e j \/ In (TSkip e) (t_this (t_log (f_t s)))) /\ ended s j RThrow).
Proof.
  intros n st up nf wt af ls s FA H f ok Hf P. destruct (ff_run n nf st up wt af FA ls _ _ (here_new n nf st up wt af) (ff_new n nf st up wt af) H) as [[E1 [E2 _]] I].
  pose proof (ff_pc _ I f) as Q. rewrite E1, E2, P in Q. destruct (Q Hf) as [[A|[A [e [j [r [Ie [L [J ->]]]]]]]] _].
  - left. intros e j Ie L. exact (A e Ie j L).
  - right. split; [exact A|]. exists e, j. split; [exact Ie|]. split; [|exact J]. destruct L as [L|[_ L]]; auto.
Qed.
(** A fence that returns an error has met a body that went wrong. *)
Theorem C87_real_error_partial : forall n st up nf wt af ls s, fences_after n nf st wt af -> f_run (f_new n st up nf wt af) ls = Some s -> forall f, f < nf -> f_pc s f = FDone false ->
  exists e j r, In e (wt f) /\ (latest s e j \/ In (TSkip e) (t_this (t_log (f_t s)))) /\ ended s j r /\ r <> ROk.
Proof.
  intros n st up nf wt af ls s FA H f Hf P. destruct (ff_run n nf st up wt af FA ls _ _ (here_new n nf st up wt af) (ff_new n nf st up wt af) H) as [[E1 [E2 _]] I].
  pose proof (ff_pc _ I f) as Q. rewrite E1, E2, P in Q. destruct (Q Hf) as [_ W]. destruct (W eq_refl) as [e [j [r [Ie [L [J X]]]]]]. exists e, j, r. split; [exact Ie|]. split; [|auto]. destruct L as [L|[_ L]]; auto.
Qed.
(** If no other fence waits for its elements, a fence that returns OK has found that all of their late bodies ended well. *)
Theorem C87_errors_partial : forall n st up nf wt af ls s, fences_after n nf st wt af -> one_fence nf wt -> f_run (f_new n st up nf wt af) ls = Some s -> forall f, f < nf -> f_pc s f = FDone true ->
  forall e j, In e (wt f) -> latest s e j -> In (TLate e j) (t_this (t_log (f_t s))) -> ended s j ROk.
Proof.
  intros n st up nf wt af ls s FA ONE H f Hf P e j Ie L Lt. destruct (ff_run n nf st up wt af FA ls _ _ (here_new n nf st up wt af) (ff_new n nf st up wt af) H) as [[E1 [E2 _]] I].
  pose proof (fs_run n nf st up wt af FA ONE ls _ _ (here_new n nf st up wt af) (ff_new n nf st up wt af) (fs_new n nf st up wt af) H) as J.
  pose proof (fs_pc _ J f) as Q. rewrite E1, E2, P in Q. exact (Q Hf e Ie j L Lt).
Qed.
(** A run with fences ends OK only if every fence returned OK: the waited-for bodies have ended, the late ones well. *)
Theorem C87_run_partial : forall n st up nf wt af ls s s', fences_after n nf st wt af -> one_fence nf wt -> f_run (f_new n st up nf wt af) ls = Some s -> f_step s (FL TLOwner) = Some s' -> t_log (f_t s') = TEnd EndOk :: t_log (f_t s) ->
  forall f e j, f < nf -> In e (wt f) -> latest s' e j -> (exists r, ended s' j r) /\ (In (TLate e j) (t_this (t_log (f_t s'))) -> ended s' j ROk).
Proof.
  intros n st up nf wt af ls s s' FA ONE H St Lg f e j Hf Ie L.
  assert (H' : f_run (f_new n st up nf wt af) (ls ++ [FL TLOwner]) = Some s').
  { clear - H St. revert H. generalize (f_new n st up nf wt af). induction ls as [|l r IH]; intros s0 H; cbn [app f_run] in *; [injection H as <-; rewrite St; reflexivity|]. destruct (f_step s0 l); [|discriminate]. auto. }
  destruct (ff_run n nf st up wt af FA ls _ _ (here_new n nf st up wt af) (ff_new n nf st up wt af) H) as [[E1 _] I].
  assert (P : f_pc s' f = FDone true).
  { cbn [f_step t_step] in St. destruct (t_ph (f_t s)) as [| |[|e0 todo] ok] eqn:Ph; [discriminate| | |].
    - destruct (f_done s); [|discriminate]. injection St as <-. cbn in Lg. symmetry in Lg. exfalso. revert Lg. generalize (t_log (f_t s)). intros l X. assert (Y : length (TEnd EndOk :: l) = length l) by (rewrite X; reflexivity). cbn in Y. lia.
    - injection St as <-. cbn in Lg. destruct ok; [|discriminate]. cbn [set_t f_pc]. apply (ff_reset _ I _ _ Ph); [rewrite E1; exact Hf|reflexivity].
    - exfalso. destruct (strategy_eqb _ _); [|injection St as <-; cbn in Lg; discriminate]. destruct (t_fut (f_t s) e0) as [k|]; [|injection St as <-; cbn in Lg; discriminate]. destruct (t_job (f_t s) k) as [| | |[| |]]; try discriminate; injection St as <-; cbn in Lg; discriminate. }
  split; [|apply (C87_errors_partial n st up nf wt af _ s' FA ONE H' f Hf P e j Ie L)].
  destruct (C87_waits_partial n st up nf wt af _ s' FA H' f true Hf P) as [A|[A _]]; [exact (A e j Ie L)|discriminate].
Qed.
(** Fences placed after their elements, no two for the same one: no two threads use the result of an element at the same time. *)
Theorem C87_no_race_partial : forall n st up nf wt af ls s, fences_after n nf st wt af -> one_fence nf wt -> f_run (f_new n st up nf wt af) ls = Some s -> ~ race s.
Proof.
  intros n st up nf wt af ls s FA ONE H. destruct (ff_run n nf st up wt af FA ls _ _ (here_new n nf st up wt af) (ff_new n nf st up wt af) H) as [[E1 [E2 [E3 [E4 E5]]]] I].
  assert (W : forall f e r ok, f < f_n s -> f_pc s f = FAt (e :: r) ok -> In e (wt f) /\ t_pc (f_t s) e = XFin true).
  { intros f e r ok Hf P. pose proof (ff_pc _ I f Hf) as Q. rewrite P, E2 in Q. destruct Q as [dn [A _]]. assert (Ie : In e (wt f)) by (rewrite A; apply in_or_app; right; now left). split; [exact Ie|].
    apply (ff_after _ I f Hf); [rewrite P; discriminate|]. rewrite E3. rewrite E1 in Hf. apply (FA f Hf). exact Ie. }
  assert (X1 : forall e f, uses s e WElem -> uses s e (WFence f) -> False) by (intros e f [_ [_ [j P]]] [Hf [r [ok Q]]]; destruct (W _ _ _ _ Hf Q) as [_ Z]; congruence).
  assert (X2 : forall e, uses s e WElem -> uses s e WReset -> False) by (intros e [_ [P _]] [r [ok [Q _]]]; congruence).
  assert (X3 : forall e f, uses s e (WFence f) -> uses s e WReset -> False) by (intros e f [Hf [r [ok P]]] [r' [ok' [Q _]]]; destruct (ff_reset _ I _ _ Q f Hf) as [Z _]; rewrite P in Z; discriminate).
  intros [e [w [w' [N [U U']]]]]. destruct w as [|f|]; destruct w' as [|g|]; try congruence; eauto.
  apply N. f_equal. destruct U as [Hf [r [ok P]]]. destruct U' as [Hg [r' [ok' Q]]]. rewrite E1 in *. eapply ONE; [exact Hf|exact Hg| |]; eapply W; eauto; rewrite E1; eauto.
Qed.

(** Three elements: 0 and 1 may be late without failing the run, a fence for both after them *)
Definition stF (e : nat) : strategy := match e with 0 => NoHold | 1 => HoldByPipeline | _ => Sync end.
Definition wtF (f : nat) : list nat := [0; 1].
Lemma fences_afterF : fences_after 3 1 stF wtF wtF.
Proof. intros f Hf. split; [repeat constructor; cbn; intuition lia|]. split; intros e H; cbn in H; intuition; subst; cbn in *; try discriminate; lia. Qed.
Lemma one_fenceF : one_fence 1 wtF.
Proof. intros f g e Hf Hg. lia. Qed.
Definition lateF : list flabel := [FL TLRun; FL (TLElem 0 false); FL (TLElem 1 false); FL (TLElem 2 false); FL (TLJob 0 ROk); FL (TLElem 0 true); FL (TLElem 1 true); FL (TLElem 0 false); FL (TLElem 1 false); FStep 0].
Definition schedF (a b : outcome) := lateF ++ [FL (TLJob 0 a); FL (TLJob 1 ROk); FStep 0; FL (TLJob 1 b); FStep 0; FStep 0; FL (TLJob 2 ROk); FL (TLElem 2 false); FL (TLElem 2 false); FL TLOwner; FL TLOwner; FL TLOwner].
Example C87_waits_ex : exists s, fences_after 3 1 stF wtF wtF /\ one_fence 1 wtF /\ f_run (f_new 3 stF (fun _ => []) 1 wtF wtF) (schedF ROk ROk) = Some s /\ f_pc s 0 = FDone true /\ latest s 0 0 /\ latest s 1 1 /\ In (TLate 0 0) (t_this (t_log (f_t s))) /\ In (TLate 1 1) (t_this (t_log (f_t s))).
Proof. eexists. split; [exact fences_afterF|]. split; [exact one_fenceF|]. split; [vm_compute; reflexivity|]. split; [reflexivity|]. split; [reflexivity|]. split; [reflexivity|]. cbn. tauto. Qed.
Example C87_run_ex : exists s s', f_run (f_new 3 stF (fun _ => []) 1 wtF wtF) (schedF ROk ROk) = Some s /\ f_step s (FL TLOwner) = Some s' /\ t_log (f_t s') = TEnd EndOk :: t_log (f_t s).
Proof. do 2 eexists. split; [vm_compute; reflexivity|]. split; reflexivity. Qed.
(** The error of a late body fails the fence, and with it the run. *)
Example C87_errors_ex : exists s s', f_run (f_new 3 stF (fun _ => []) 1 wtF wtF) (schedF RErr ROk) = Some s /\ f_pc s 0 = FDone false /\ f_step s (FL TLOwner) = Some s' /\ t_log (f_t s') = TEnd EndErr :: t_log (f_t s).
Proof. do 2 eexists. split; [vm_compute; reflexivity|]. split; [reflexivity|]. split; reflexivity. Qed.
(** The fence is blocked as long as the first body has not ended. *)
Example C87_blocked_ex : exists s, f_run (f_new 3 stF (fun _ => []) 1 wtF wtF) lateF = Some s /\ f_step s (FStep 0) = None /\ uses s 0 (WFence 0).
Proof. eexists. split; [vm_compute; reflexivity|]. split; [reflexivity|]. split; [cbn; lia|]. cbn. eauto. Qed.

(** After an exception of one body the fence does not wait for the others: a fence that has returned, and yet a body it was to wait for has not ended. *)
Theorem C87_exception_refuted : exists n st up nf wt af ls s f e j, fences_after n nf st wt af /\ one_fence nf wt /\ f_run (f_new n st up nf wt af) ls = Some s /\ f < nf /\ f_pc s f = FDone false /\ In e (wt f) /\ latest s e j /\ t_job (f_t s) j = JRunning.
Proof.
  exists 3, stF, (fun _ => []), 1, wtF, wtF, (lateF ++ [FL (TLJob 0 RThrow); FL (TLJob 1 ROk); FStep 0]). eexists. exists 0, 1, 1. split; [exact fences_afterF|]. split; [exact one_fenceF|]. split; [vm_compute; reflexivity|]. split; [lia|]. split; [reflexivity|]. split; [cbn; tauto|]. split; reflexivity.
Qed.
(** Nothing requires a fence to come after the elements it waits for: one that does not returns OK before they have even started, and the run ends OK although they end with an error that a fence should report. *)
Theorem C87_unordered_refuted : exists n st up nf wt af ls s f e j, (forall f, f < nf -> NoDup (wt f) /\ forall e, In e (wt f) -> e < n /\ st e <> Sync) /\ one_fence nf wt /\ f_run (f_new n st up nf wt af) ls = Some s /\ f < nf /\ f_pc s f = FDone true /\
  In e (wt f) /\ latest s e j /\ ended s j RErr /\ exists b, t_log (f_t s) = TRet j RErr :: TEnd EndOk :: b.
Proof.
  exists 1, (fun _ => NoHold), (fun _ => []), 1, (fun _ => [0]), (fun _ => []), [FL TLRun; FStep 0; FStep 0; FStep 0; FL (TLElem 0 false); FL (TLJob 0 ROk); FL (TLElem 0 true); FL (TLElem 0 false); FL TLOwner; FL TLOwner; FL TLOwner; FL (TLJob 0 RErr)].
  eexists. exists 0, 0, 0. split; [intros f Hf; split; [repeat constructor; cbn; tauto|]; intros e [<-|[]]; split; [lia|discriminate]|]. split; [intros f g e Hf Hg; lia|]. split; [vm_compute; reflexivity|]. split; [lia|]. split; [reflexivity|]. split; [cbn; tauto|]. split; [reflexivity|]. split; [reflexivity|]. eexists. reflexivity.
Qed.
(** Two fences for one element, or a fence that does not come after it, use its result at the same time as somebody else. *)
Theorem C87_race_refuted : (exists n st up nf wt af ls s, fences_after n nf st wt af /\ f_run (f_new n st up nf wt af) ls = Some s /\ race s) /\ (exists n st up nf wt af ls s, one_fence nf wt /\ f_run (f_new n st up nf wt af) ls = Some s /\ race s).
Proof.
  split.
  - exists 1, (fun _ => NoHold), (fun _ => []), 2, (fun _ => [0]), (fun _ => [0]), [FL TLRun; FL (TLElem 0 false); FL (TLElem 0 true); FL (TLElem 0 false); FStep 0; FStep 1]. eexists. split; [intros f Hf; split; [repeat constructor; cbn; tauto|]; split; intros e [<-|[]]; [split; [now left|discriminate]|lia]|]. split; [vm_compute; reflexivity|].
    exists 0, (WFence 0), (WFence 1). split; [discriminate|]. split; (split; [cbn; lia|]); cbn; eauto.
  - exists 1, (fun _ => NoHold), (fun _ => []), 1, (fun _ => [0]), (fun _ => []), [FL TLRun; FL (TLElem 0 false); FStep 0]. eexists. split; [intros f g e Hf Hg; lia|]. split; [vm_compute; reflexivity|].
    exists 0, WElem, (WFence 0). split; [discriminate|]. split; [split; [cbn; lia|split; [reflexivity|cbn; eauto]]|split; [cbn; lia|cbn; eauto]].
Qed.
(** A fence that is not placed after its element reports the error of a body of an earlier run. *)
Theorem C87_old_error_refuted : exists n st up nf wt af ls s f, one_fence nf wt /\ f_run (f_new n st up nf wt af) ls = Some s /\ f < nf /\ f_pc s f = FDone false /\ (forall e j, ~ In (TBody e j) (t_this (t_log (f_t s)))) /\ exists e j b, f_log s = FEnd f false :: FGot f e j RErr :: b.
Proof.
  exists 1, (fun _ => NoHold), (fun _ => []), 1, (fun _ => [0]), (fun _ => []), [FL TLRun; FStep 0; FStep 0; FStep 0; FL (TLElem 0 false); FL (TLJob 0 ROk); FL (TLElem 0 true); FL (TLElem 0 false); FL TLOwner; FL TLOwner; FL TLOwner; FL (TLJob 0 RErr); FL TLRun; FStep 0; FStep 0; FStep 0].
  eexists. exists 0. split; [intros f g e Hf Hg; lia|]. split; [vm_compute; reflexivity|]. split; [lia|]. split; [reflexivity|]. split; [intros e j; cbn; tauto|]. do 3 eexists. reflexivity.
Qed.

Print Assumptions C87_waits_partial.
Print Assumptions C87_errors_partial.
Print Assumptions C87_run_partial.
Print Assumptions C87_no_race_partial.

(** What a fence takes from an element is what that body returned. *)
Lemma got_step n nf st wt af (FA : fences_after n nf st wt af) s l s' : here n nf st wt af s -> ff_inv s -> f_step s l = Some s' ->
  (forall f e j r, In (FGot f e j r) (f_log s) -> ended s j r) -> forall f e j r, In (FGot f e j r) (f_log s') -> ended s' j r.
Proof.
  intros Hh I H G. pose proof (ff_t _ I) as It. unfold ended in *.
  assert (T : forall l0 t, t_step (f_t s) l0 = Some t -> forall j r, t_job (f_t s) j = JDone r -> t_job t j = JDone r).
  { intros l0 t X. destruct l0; [destruct (tt_run _ _ It X) as (_ & _ & _ & Y & _); intros j r; now rewrite Y| | | |]; (eapply tg_job, tt_step; [exact It| |exact X]; discriminate). }
  destruct l as [l|f].
  - destruct l; cbn [f_step] in H; [| |destruct (t_step (f_t s) _) eqn:E; [|discriminate]; injection H as <-; cbn [set_t f_log f_t]; intros ff ee jj rr Hin; exact (T _ _ E jj rr (G ff ee jj rr Hin)) ..].
    + destruct (t_step (f_t s) TLRun) eqn:E; [|discriminate]. injection H as <-. cbn [f_log f_t]. intros ff ee jj rr Hin. exact (T _ _ E jj rr (G ff ee jj rr Hin)).
    + destruct (t_ph (f_t s)); [|destruct (f_done s); [|discriminate]; injection H as <-; exact G|]; (destruct (t_step (f_t s) TLOwner) eqn:E; [|discriminate]; injection H as <-; cbn [set_t f_log f_t]; intros ff ee jj rr Hin; exact (T _ _ E jj rr (G ff ee jj rr Hin))).
  - cbn [f_step] in H. destruct ((f <? f_n s) && in_go (t_ph (f_t s))); [|discriminate]. destruct (f_pc s f) as [|[|e r] ok|ok]; [| | |discriminate].
    + destruct (forallb _ _); [|discriminate]. injection H as <-. exact G.
    + injection H as <-. cbn [set_fpc f_log f_t app]. intros f' e' j' r' [Q|Q]; [discriminate|eauto].
    + destruct (t_fut (f_t s) e) as [j|]; [|injection H as <-; cbn [set_fpc f_log f_t app]; intros f' e' j' r' [Q|Q]; [discriminate|eauto]].
      destruct (t_job (f_t s) j) as [| | |[| |]] eqn:J; try discriminate; injection H as <-; cbn [set_fpc f_log f_t app take_fut t_job]; intros f' e' j' r' Hin;
        repeat (destruct Hin as [Q|Hin]; [first [discriminate Q|injection Q as <- <- <- <-; exact J]|]); eauto.
Qed.
Theorem C87_got_partial : forall n st up nf wt af ls s, fences_after n nf st wt af -> f_run (f_new n st up nf wt af) ls = Some s -> forall f e j r, In (FGot f e j r) (f_log s) -> ended s j r.
Proof.
  intros n st up nf wt af ls s FA. assert (K : forall ls s0, here n nf st wt af s0 -> ff_inv s0 -> (forall f e j r, In (FGot f e j r) (f_log s0) -> ended s0 j r) -> f_run s0 ls = Some s -> forall f e j r, In (FGot f e j r) (f_log s) -> ended s j r).
  { clear ls. induction ls as [|l ls IH]; intros s0 Hh I G H; cbn [f_run] in H; [injection H as <-; exact G|]. destruct (f_step s0 l) as [s1|] eqn:E; [|discriminate].
    destruct (ff_run n nf st up wt af FA [l] s0 s1 Hh I) as [Hh1 I1]; [cbn [f_run]; now rewrite E|]. apply (IH s1 Hh1 I1); [|exact H]. exact (got_step n nf st wt af FA s0 l s1 Hh I E G). }
  intros H. apply (K ls _ (here_new n nf st up wt af) (ff_new n nf st up wt af)); [easy|exact H].
Qed.
Print Assumptions C87_got_partial.
