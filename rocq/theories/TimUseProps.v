(** C132: a timer used by several threads. See TimUseSpec. *)
From Verif Require Import TimUseModel TimUseSpec TimUseProofs.
From Coq Require Import Lia.
Local Open Scope nat_scope.
Local Open Scope list_scope.

(** If the users take turns: no call waits on an empty future; whenever no call is going on, a stopped timer has no timer thread left and a started
    one has exactly one; and a call that is going on can always return without any further call.
    Missing for the full property: the refutations below. *)
Theorem C132_turns_partial : forall s, turns s ->
  (forall l, (call l -> quiet s) -> qstep s l <> QUndef) /\
  (quiet s -> q_stop s = true -> forall w, ~ running s w) /\
  (quiet s -> q_stop s = false -> exists v, running s v /\ forall w, running s w -> w = v) /\
  (exists ls s', Forall (fun l => ~ call l) ls /\ qrun s ls = QRun s' /\ quiet s').
Proof.
  intros s T. destruct (turns_inv s T) as (t & I). pose proof I as [R P F W]. split; [|split; [|split]].
  - intros l C E. destruct l as [u|u|u|w b]; cbn [qstep] in E.
    + destruct (q_pc s u); discriminate.
    + destruct (q_pc s u); discriminate.
    + destruct (Nat.eq_dec u t) as [-> |N]; [|rewrite (R _ N) in E; discriminate]. destruct (q_pc s t) eqn:U; try discriminate; [destruct (done s); discriminate|]. destruct P as (_ & v & P2 & _). rewrite P2 in E. destruct (done s); discriminate.
    + destruct (q_work s w); discriminate.
  - intros Q S0 w [_ K]. rewrite (Q t) in P. cbn [phase] in P. rewrite S0 in P. now apply K.
  - intros Q S0. rewrite (Q t) in P. cbn [phase] in P. rewrite S0 in P. destruct P as (v & P1 & P2 & P3). exists v. split; [split; [now apply W|exact P2]|]. intros w [_ K]. destruct (Nat.eq_dec w v) as [E|N]; [exact E|]. now destruct K; apply P3.
  - exact (all_return s t I).
Qed.
(** If nobody calls stop, any number of threads may call start at the same time: no call goes wrong, at most one timer thread is ever made, and exactly one once a call
    of start was made and all calls have returned. *)
Theorem C132_starts_partial : forall ls, (forall t, ~ In (Stop t) ls) ->
  qrun q_new ls <> QUndef /\
  forall s, qrun q_new ls = QRun s -> q_n s <= 1 /\ (quiet s -> (exists t, In (Start t) ls) -> q_n s = 1 /\ q_fut s = Some 0).
Proof.
  intros ls N. assert (I : sinv q_new) by (left; repeat split). pose proof (sinv_run ls q_new N I) as H. split; [intro E; now rewrite E in H|]. intros s E. rewrite E in H. destruct H as [[(S0 & Q & N0 & F)|(S0 & t & R & X)] H].
  - split; [lia|]. intros _ K. rewrite (H (or_intror K)) in S0. discriminate.
  - split; [destruct (q_pc s t); try destruct X; lia|]. intros Q _. rewrite (Q t) in X. exact X.
Qed.
(** REFUTED: stop may be called while a first start is going on. It then waits on the empty future, before start has assigned it. *)
Theorem C132_stop_refuted : forall s t u, quiet s -> q_stop s = true -> q_fut s = None -> t <> u -> qrun s [Start t; Stop u; Go u; Go u] = QUndef.
Proof.
  intros s t u Q S0 F N. cbn [qrun qstep]. rewrite (Q t), S0. cbn [qrun qstep at_pc put_stop q_pc q_stop q_fut]. rewrite upd_other by congruence. rewrite (Q u). cbn [qrun qstep at_pc put_stop q_pc q_stop q_fut]. rewrite upd_same. cbn [qrun qstep at_pc put_stop q_pc q_stop q_fut]. rewrite upd_same, F. reflexivity.
Qed.
(** REFUTED: start may be called while a stop is going on. From every state of users that took turns in which the timer is started and no call is going on: after such
    calls there are two timer threads, and as long as nobody calls stop again, neither thread ends and neither call returns, whatever else happens. *)
Theorem C132_start_refuted : forall s t u, turns s -> quiet s -> q_stop s = false -> t <> u ->
  exists s1, qrun s [Stop t; Start u; Go u; Go u] = QRun s1 /\
  forall ls s2, (forall x, ~ In (Stop x) ls) -> qrun s1 ls = QRun s2 ->
    q_pc s2 t <> PIdle /\ q_pc s2 u <> PIdle /\ exists v w, v <> w /\ running s2 v /\ running s2 w.
Proof.
  intros s t u T Q S0 N. destruct (turns_inv s T) as (x & [R P F W]). rewrite (Q x) in P. cbn [phase] in P. rewrite S0 in P. destruct P as (v & P1 & P2 & P3).
  eexists. split.
  - cbn [qrun qstep]. rewrite (Q t), S0. cbn [qrun qstep at_pc put_stop q_pc q_stop q_fut q_n q_work more]. rewrite upd_other by congruence. rewrite (Q u). cbn [qrun qstep at_pc put_stop q_pc q_stop q_fut q_n q_work more]. rewrite upd_same. cbn [qrun qstep at_pc put_stop q_pc q_stop q_fut q_n q_work more]. rewrite upd_same. reflexivity.
  - intros ls s2 NS E. pose proof (F _ P1) as LV. eapply hang_run with (t := t) (u := u) (v := v) (w := q_n s) in E; [|exact NS|].
    + destruct E as (_ & _ & VW & NV & NW & KV & KW & U & B & _). split; [destruct B as [B|B]; rewrite B; discriminate|]. split; [rewrite U; discriminate|]. exists v, (q_n s). repeat split; assumption.
    + unfold hang. cbn [at_pc put_stop more q_pc q_stop q_fut q_n q_work]. split; [reflexivity|]. split; [exact P1|]. split; [lia|]. split; [lia|]. split; [lia|]. split; [rewrite upd_other by lia; exact P2|]. split; [rewrite upd_same; discriminate|]. split; [apply upd_same|]. split.
      * left. rewrite !upd_other by congruence. apply upd_same.
      * intros y Y1 Y2. rewrite !upd_other by congruence. apply Q.
Qed.
(** REFUTED: a stop that has returned means that the timer has stopped. If another thread is stopping the timer, stop returns at once, while the task is still being executed. *)
Theorem C132_returned_refuted : forall s t u v, quiet s -> q_stop s = false -> q_fut s = Some v -> q_work s v = K3 -> t <> u ->
  exists s', qrun s [Stop t; Stop u] = QRun s' /\ q_pc s' u = PIdle /\ q_work s' v = K3.
Proof.
  intros s t u v Q S0 F K N. eexists. split; [cbn [qrun qstep]; rewrite (Q t), S0; cbn [qrun qstep at_pc put_stop q_pc q_stop]; rewrite upd_other by congruence; rewrite (Q u); reflexivity|]. cbn [at_pc put_stop q_pc q_work]. rewrite upd_other by congruence. split; [apply Q|exact K].
Qed.

(** Cases that meet the hypotheses: started by one thread, stopped by a second, started again by a third, with the new timer thread in the task. *)
Fixpoint c132_turns (s : qst) (ls : list qlab) : Prop :=
  match ls with
  | [] => True
  | l :: r => match qstep s l with QRun s' => (call l -> quiet s) /\ c132_turns s' r | _ => False end
  end.
Lemma c132_turned ls : forall s s', turns s -> c132_turns s ls -> qrun s ls = QRun s' -> turns s'.
Proof.
  induction ls as [|l ls IH]; intros s s' T C E; cbn [qrun c132_turns] in *; [injection E as <-; exact T|]. destruct (qstep s l) as [s1| |] eqn:E1; try contradiction. destruct C as [C1 C2]. eapply IH; [eapply tu_step; [exact T|exact C1|exact E1]|exact C2|exact E].
Qed.
Definition c132_case : list qlab := [Start 1; Go 1; Go 1; Go 1; Work 0 true; Work 0 true; Stop 2; Go 2; Work 0 true; Work 0 true; Go 2; Start 3; Go 3; Go 3; Work 1 true; Work 1 true; Go 3; Work 1 true].
Example C132_case_turns : exists s, qrun q_new c132_case = QRun s /\ turns s /\ quiet s /\ q_stop s = false /\ q_fut s = Some 1 /\ q_n s = 2 /\ q_work s 1 = K3.
Proof.
  eexists. split; [vm_compute; reflexivity|]. split.
  - eapply (c132_turned c132_case); [apply tu_new| |vm_compute; reflexivity]. cbn. repeat (split; [intro C; try destruct C; intro x; destruct x as [|[|[|[|x]]]]; reflexivity|]). exact Logic.I.
  - split; [intro x; destruct x as [|[|[|[|x]]]]; reflexivity|]. repeat split.
Qed.
Example C132_case_starts : exists s, qrun q_new [Start 1; Start 2; Go 1; Start 3; Go 1; Work 0 true; Go 1; Start 2] = QRun s /\ quiet s /\ q_n s = 1.
Proof. eexists. split; [vm_compute; reflexivity|]. split; [intro x; destruct x as [|[|[|[|x]]]]; reflexivity|reflexivity]. Qed.
Example C132_case_new : quiet q_new /\ q_stop q_new = true /\ q_fut q_new = None.
Proof. repeat split. Qed.
Print Assumptions C132_turns_partial.
Print Assumptions C132_starts_partial.
Print Assumptions C132_stop_refuted.
Print Assumptions C132_start_refuted.
Print Assumptions C132_returned_refuted.
