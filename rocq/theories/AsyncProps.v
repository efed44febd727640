(** C107 *)
From Verif Require Import AsyncSpec AsyncProofs.
Local Open Scope list_scope.

(** A program that asks or drops the future of every asynchronous call before it calls the pipeline again: under every schedule it comes
    to its end after the same number of steps, no thread is ever stuck, and trace and answers are those of the calls made one after the
    other, deferred ones when their future is asked. *)
Theorem C107_tidy_partial : forall u prog, tidy None prog ->
  exists N, forall ws s, sys_run u (sys_new prog) ws = Some s ->
    length ws <= N
    /\ (length ws < N -> ~ finished s /\ exists w s', sys_step u s w = Some s')
    /\ (length ws = N -> finished s /\ p_tr (s_p s) = b_tr (fst (b_prog u b_new prog)) /\ p_init (s_p s) = b_init (fst (b_prog u b_new prog))
                         /\ s_ans s = snd (b_prog u b_new prog)).
Proof.
  intros u prog T. destruct (good_new u prog T) as (N & G). exists N. intros ws s E.
  destruct (good_run u _ _ ws _ N s G E) as (N' & -> & G'). split; [lia|]. split.
  - intros L. destruct N' as [|N']; [lia|]. split; [|now apply (good_go u s N' _ _ G')]. intros [F1 F2].
    destruct (good_go u s N' _ _ G') as (w & s' & W).
    destruct G' as [b w0 l H1 H2 H3 H4 H5 H6 H7|a0 b n m ok l H1 H2 H3 H4 H5 H6 H7 H8|k0 a0 b n m ok l H1 H2 H3 H4 H5 H6 H7 H8 H9 H10].
    + rewrite F2 in H4. inversion H4.
    + congruence.
    + rewrite F2 in H7. discriminate.
  - intros L. assert (N' = 0) by lia. subst N'. destruct (good_end u s _ _ G') as (F & P & A). rewrite P. now split.
Qed.

(** Without this discipline nothing is refused: while an asynchronous run is going on, run is accepted, and the body of an element is
    started while it is being executed. *)
Definition c107_two := [OInit; OAsync 0 JRun Async; OCall JRun; OGet 0].
Theorem C107_overlap_refuted : forall e r body ini, ini [] = true ->
  exists ws s, sys_run (mkUser (e :: r) body ini) (sys_new c107_two) ws = Some s /\ overlap (p_tr (s_p s)) e.
Proof.
  intros e r body ini Hi.
  exists [Main; Main; Main; Main; Main; Main; Thread 0; Thread 0; Thread 0; Main; Main; Main]. eexists. split.
  - cbn. rewrite Hi. cbn. reflexivity.
  - cbn. exists [VInit; VSetup], true, [VSetup], true, []. split; [reflexivity|]. intros ok [H|[]]. discriminate.
Qed.
(** And the body of an element finds the parameters reset by the other run, although its own run is not over. *)
Theorem C107_params_refuted : forall e r body ini, ini [] = true ->
  exists ws s, sys_run (mkUser (e :: r) body ini) (sys_new c107_two) ws = Some s /\ In (VStart e false) (p_tr (s_p s)).
Proof.
  intros e r body ini Hi. set (u := mkUser (e :: r) body ini).
  assert (S1 : exists s1 tr, sys_run u (sys_new c107_two) [Main; Main; Main; Main; Main; Main; Thread 0; Thread 0] = Some s1
               /\ s_p s1 = mkP true true tr /\ s_now s1 = Some (mkA CRun0 true None) /\ s_fut s1 0 = Some (FThread (mkA (CBody (e :: r)) true None))).
  { eexists. exists [VInit; VSetup]. split; [cbn; rewrite Hi; cbn; reflexivity|]. repeat (split; [reflexivity|]). reflexivity. }
  destruct S1 as (s1 & tr & R1 & P1 & N1 & F1).
  assert (X : exists n, ends u (mkP true true tr) (mkA CRun0 true None) n (mkP true false (fst (b_run u tr))) (snd (b_run u tr))).
  { apply ends_run. exists 0. cbn [andb after]. now apply (ends_done u _ (mkA CDone (snd (b_run u tr)) None)). }
  destruct X as (n & X). rewrite <- P1 in X. destruct (main_ends u n s1 _ _ _ N1 X) as (a' & R2 & _).
  exists ([Main; Main; Main; Main; Main; Main; Thread 0; Thread 0] ++ repeat Main n ++ [Thread 0]). eexists. split.
  - rewrite sys_run_app, R1, sys_run_app, R2. cbn [sys_run sys_step]. unfold fut_step. cbn [s_fut]. rewrite F1. cbn. reflexivity.
  - cbn. apply in_or_app. right. now left.
Qed.
(** Nor is destroy: it returns OK, and afterwards the run it was called in starts a body. *)
Theorem C107_destroy_refuted : forall e r body ini, ini [] = true ->
  exists ws s, sys_run (mkUser (e :: r) body ini) (sys_new [OInit; OAsync 0 JRun Async; ODestroy; OGet 0]) ws = Some s
               /\ s_ans s = [RStatus true; RVoid; RStatus true] /\ p_tr (s_p s) = [VInit; VDestroy; VSetup; VStart e true].
Proof.
  intros e r body ini Hi.
  exists [Main; Main; Main; Main; Main; Thread 0; Main; Main; Main; Main; Thread 0; Thread 0]. eexists. split.
  - cbn. rewrite Hi. cbn. reflexivity.
  - now split.
Qed.

(** A tidy program: two asynchronous runs, the second of which fails in element 2, a deferred run that is asked after destroy, one that is
    dropped, and a process. *)
Definition c107_user := mkUser [1; 2] (fun tr e => Nat.ltb (length tr) 9 || negb (Nat.eqb e 2)) (fun _ => true).
Definition c107_prog := [OInit; OAsync 0 JRun Async; OUser; OGet 0; OAsync 1 JRun Deferred; OAsync 2 JRun Deferred; OAsync 3 (JProcess 1) Async; OGet 3;
                         OAsync 0 JRun Async; OGet 0; ODrop 2; ODestroy; OGet 1; OAsync 3 (JProcess 1) Async; ODrop 3].
Example C107_nonvacuous :
  tidy None c107_prog
  /\ snd (b_prog c107_user b_new c107_prog)
     = [RStatus true; RVoid; RVoid; RStatus true; RVoid; RVoid; RThrow; RNone; RVoid; RStatus false; RVoid; RStatus true; RStatus false; RVoid; RVoid]
  /\ b_tr (fst (b_prog c107_user b_new c107_prog))
     = [VInit; VSetup; VStart 1 true; VEnd 1 true; VStart 2 true; VEnd 2 true; VReset; VSetup; VStart 1 true; VEnd 1 true; VStart 2 true; VEnd 2 false; VReset; VDestroy;
        VInit; VSetup; VStart 1 true; VEnd 1 true; VStart 2 true; VEnd 2 false; VReset; VDestroy].
Proof. split; [cbn; tauto|]. split; vm_compute; reflexivity. Qed.

Print Assumptions C107_tidy_partial.
Print Assumptions C107_overlap_refuted.
Print Assumptions C107_params_refuted.
Print Assumptions C107_destroy_refuted.
