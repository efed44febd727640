(** Property theorems on task groups. *)
From Verif Require Import TGroupModel.
Local Open Scope Z_scope.
Local Open Scope list_scope.

Lemma wait_false dead : forall l now, fst (wait_all dead now false l) = false.
Proof. induction l as [|g r IH]; intros now; cbn [wait_all]; [easy|]. destruct (g_ready g) as [c|]; [destruct (c <=? _)|]; apply IH. Qed.
Lemma wait_mono dead : forall l now ok, now <= snd (wait_all dead now ok l).
Proof.
  induction l as [|g r IH]; intros now ok; cbn [wait_all]; [cbn; lia|]. destruct (g_ready g) as [c|]; [destruct (c <=? _)|];
  match goal with |- _ <= snd (wait_all _ ?n ?o _) => specialize (IH n o) end; lia.
Qed.
(** C42: OK is reported only when every task has ended. *)
Theorem C42_truth : forall cb now gttl ttl l, r_ok (submit true cb now gttl ttl l) = true ->
  forall g, In g l -> exists c, g_ready g = Some c /\ c <= r_end (submit true cb now gttl ttl l).
Proof.
  intros cb now gttl ttl l. unfold submit. set (d := now + Z.min gttl ttl). destruct (wait_all d now true l) as [ok t] eqn:E. cbn [r_ok r_end]. intros -> g Hg.
  assert (H : forall d l now t, wait_all d now true l = (true, t) -> forall g, In g l -> exists c, g_ready g = Some c /\ c <= t).
  { clear. intros d. induction l as [|x r IH]; intros now t E g Hg; [easy|]. cbn [wait_all] in E. destruct (g_ready x) as [c|] eqn:R.
    - destruct (Z.leb_spec c (Z.max now d + Z.of_nat (g_over x))).
      + destruct Hg as [->|Hg]; [|exact (IH _ t E g Hg)]. exists c. split; [easy|]. pose proof (wait_mono d r (Z.max now c + Z.of_nat (g_slack g)) true) as M. rewrite E in M. cbn in M. lia.
      + pose proof (wait_false d r (Z.max now d + Z.of_nat (g_over x) + Z.of_nat (g_slack x))) as F. rewrite E in F. discriminate.
    - pose proof (wait_false d r (Z.max now d + Z.of_nat (g_over x) + Z.of_nat (g_slack x))) as F. rewrite E in F. discriminate. }
  exact (H d l now t E g Hg).
Qed.
(** C42: if all tasks have ended by the deadline, the result is OK, whatever the delays of the waiting thread. *)
Theorem C42_in_time : forall cb now gttl ttl l, (forall g, In g l -> ready_by (now + Z.min gttl ttl) g = true) -> r_ok (submit true cb now gttl ttl l) = true.
Proof.
  intros cb now gttl ttl l H. unfold submit. set (d := now + Z.min gttl ttl) in *.
  assert (G : forall n, fst (wait_all d n true l) = true).
  { clear - H. induction l as [|g r IH]; intros n; [easy|]. cbn [wait_all]. specialize (H g (or_introl eq_refl)) as Hg. unfold ready_by in Hg. destruct (g_ready g) as [c|]; [|discriminate]. apply Z.leb_le in Hg.
    destruct (Z.leb_spec c (Z.max n d + Z.of_nat (g_over g))); [|lia]. apply IH. intros x Hx. apply H. now right. }
  specialize (G now). destruct (wait_all d now true l). exact G.
Qed.
(** C42: if no wait ends later than the deadline the answer is exact: OK if and only if all tasks have ended by the deadline. A task group whose limit is
    already over is still given the present moment. *)
Theorem C42_exact : forall cb now gttl ttl l, (forall g, In g l -> g_over g = 0%nat /\ g_slack g = 0%nat) ->
  (r_ok (submit true cb now gttl ttl l) = true <-> forall g, In g l -> ready_by (Z.max now (now + Z.min gttl ttl)) g = true) /\
  r_end (submit true cb now gttl ttl l) <= Z.max now (now + Z.min gttl ttl).
Proof.
  intros cb now gttl ttl l H. unfold submit. set (d := now + Z.min gttl ttl).
  assert (G : forall n, n <= Z.max now d -> now <= n -> (fst (wait_all d n true l) = true <-> forall g, In g l -> ready_by (Z.max now d) g = true) /\ (forall ok, snd (wait_all d n ok l) <= Z.max now d)).
  { induction l as [|g r IH]; intros n Hn Hn2; cbn [wait_all]; [easy|]. destruct (H g (or_introl eq_refl)) as [Ho Hs]. rewrite Ho, Hs, !Z.add_0_r. assert (Hr : forall x, In x r -> g_over x = 0%nat /\ g_slack x = 0%nat) by (intros x Hx; apply H; now right).
    specialize (IH Hr). destruct (g_ready g) as [c|] eqn:R.
    - destruct (Z.leb_spec c (Z.max n d)) as [L|L].
      + assert (RB : ready_by (Z.max now d) g = true) by (unfold ready_by; rewrite R; apply Z.leb_le; lia).
        destruct (IH (Z.max n c)) as [I1 I2]; [lia|lia|]. split; [|intros ok; cbn [Z.of_nat]; rewrite ?Z.add_0_r; apply I2]. cbn [Z.of_nat]. rewrite ?Z.add_0_r. rewrite I1. split; [intros I x [<-|Hx]; auto|intros I x Hx; apply I; now right].
      + destruct (IH (Z.max n d)) as [I1 I2]; [lia|lia|]. split; [|intros ok; cbn [Z.of_nat]; rewrite ?Z.add_0_r; apply I2]. rewrite wait_false. split; [discriminate|]. intros I. specialize (I g (or_introl eq_refl)). unfold ready_by in I. rewrite R in I. apply Z.leb_le in I. lia.
    - destruct (IH (Z.max n d)) as [I1 I2]; [lia|lia|]. split; [|intros ok; cbn [Z.of_nat]; rewrite ?Z.add_0_r; apply I2]. rewrite wait_false. split; [discriminate|]. intros I. specialize (I g (or_introl eq_refl)). unfold ready_by in I. rewrite R in I. discriminate. }
  destruct (G now) as [G1 G2]; [lia|lia|]. specialize (G2 true). destruct (wait_all d now true l) as [ok t]. cbn in *. easy.
Qed.
(** C42: every task is committed once, and the callback is called exactly once, with the status returned. On a pool that is not initialised an error is returned,
    nothing is committed and the callback is not called. *)
Theorem C42_callback : forall init now gttl ttl l,
  r_calls (submit init true now gttl ttl l) = (if init then [r_ok (submit init true now gttl ttl l)] else []) /\ r_calls (submit init false now gttl ttl l) = [] /\
  (forall cb, r_commits (submit init cb now gttl ttl l) = if init then length l else 0%nat) /\ (init = false -> forall cb, r_ok (submit init cb now gttl ttl l) = false).
Proof. intros init now gttl ttl l. unfold submit. destruct init; [|easy]. destruct (wait_all _ _ _ _) as [ok t]. easy. Qed.
Definition c42_l : list gtask := [mkGT (Some 5) false 0 0; mkGT (Some 12) false 0 0].
Example C42_case : (forall g, In g c42_l -> g_over g = 0%nat /\ g_slack g = 0%nat) /\ r_ok (submit true true 0 12 100 c42_l) = true /\ r_ok (submit true true 0 100 11 c42_l) = false /\
  r_ok (submit true true 0 11 11 [mkGT (Some 12) false 2 0]) = true.
Proof. split; [|easy]. intros g [<-|[<-|[]]]; easy. Qed.

(** C72: whether a task threw is not visible in the result: as soon as all tasks have ended the result is OK, also when some of them (or all) threw. *)
Theorem C72_refuted : forall cb now gttl ttl l, 0 <= Z.min gttl ttl -> (exists g, In g l /\ g_threw g = true) -> (forall g, In g l -> ready_by now g = true) -> r_ok (submit true cb now gttl ttl l) = true.
Proof.
  intros cb now gttl ttl l Ht _ H. apply C42_in_time. intros g Hg. specialize (H g Hg). unfold ready_by in *. destruct (g_ready g) as [c|]; [|easy]. apply Z.leb_le in H. apply Z.leb_le. lia.
Qed.
Example C72_case : r_ok (submit true true 0 10 10 [mkGT (Some 0) true 0 0]) = true.
Proof. reflexivity. Qed.
Print Assumptions C42_truth. Print Assumptions C42_in_time. Print Assumptions C42_exact. Print Assumptions C42_callback. Print Assumptions C72_refuted.

(** C72, what holds: a task that throws too late is reported like any task that is too late, and a task that throws does not disturb the others: the result, the time it is given, the tasks
    committed and the callback are those of the same group in which nothing throws. Missing: that a throw in time is reported (C72_refuted). *)
Definition no_throw (g : gtask) : gtask := mkGT (g_ready g) false (g_over g) (g_slack g).
Theorem C72_partial : forall init cb now gttl ttl l,
  submit init cb now gttl ttl l = submit init cb now gttl ttl (map no_throw l) /\
  forall g, In g l -> g_threw g = true -> (forall x, In x l -> g_over x = 0%nat /\ g_slack x = 0%nat) -> (forall c, g_ready g = Some c -> now < c /\ now + Z.min gttl ttl < c) -> r_ok (submit init cb now gttl ttl l) = false.
Proof.
  intros init cb now gttl ttl l. split.
  - assert (W : forall d l n ok, wait_all d n ok (map no_throw l) = wait_all d n ok l).
    { intros d. induction l0 as [|g r IH]; intros n ok; cbn [map wait_all no_throw g_ready g_over g_slack]; [reflexivity|]. destruct (g_ready g) as [c|]; [destruct (c <=? _)|]; apply IH. }
    unfold submit. destruct init; [|reflexivity]. rewrite W, map_length. reflexivity.
  - intros g I _ H L. destruct init; [|reflexivity]. destruct (r_ok (submit true cb now gttl ttl l)) eqn:E; [|reflexivity].
    apply (proj1 (C42_exact cb now gttl ttl l H)) with (g := g) in E; [|exact I]. unfold ready_by in E. destruct (g_ready g) as [c|]; [|discriminate E]. apply Z.leb_le in E. specialize (L c eq_refl). lia.
Qed.
Example C72_partial_case : r_ok (submit true true 0 10 10 [mkGT (Some 11) true 0 0]) = false /\ r_ok (submit true true 0 10 10 [mkGT (Some 3) true 0 0; mkGT (Some 9) false 0 0]) = true.
Proof. split; reflexivity. Qed.
Print Assumptions C72_partial.
