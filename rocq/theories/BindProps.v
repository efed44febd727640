(** C106 *)
From Verif Require Import BindSpec PoolProofs BindProofs.
Local Open Scope list_scope.

(** In any history of a pool with any configuration: a task that a thread executes was given to the pool by a call that allows this thread
    to execute it. In particular a task given to a thread by its index is executed by a primary thread that is this one or steals from
    it, and a task given with the long time strategy or a priority by a secondary thread. *)
Theorem C106_where : forall c h s l s' w t,
  pool_run c pool_new h = Some s -> pool_step c s l = Next s' -> executes s l = Some (w, t) ->
  exists g, In g h /\ In t (given1 g) /\ may c w g.
Proof.
  intros c h s l s' w t R _ X.
  assert (P : places c (fun w t => exists g, In g h /\ In t (given1 g) /\ may c w g) s).
  { apply (places_run c _ h pool_new s); [apply pinv_new|apply places_new| |exact R]. intros g x v Hg Hx Hm. now exists g. }
  destruct l; cbn [executes] in X; try discriminate.
  - destruct (p_pt s i) as [| |k|[|x r]|] eqn:Ep; try discriminate. injection X as <- <-. apply (pl_pt _ _ _ P). rewrite Ep. now left.
  - destruct (p_st s j) as [| | | |[|x r]|] eqn:Ep; try discriminate. injection X as <- <-. apply (pl_st _ _ _ P). rewrite Ep. now left.
Qed.

(** With stealing switched off (max_task_steal_range_ 0, or one primary thread) a task given to a thread is executed by this thread. *)
Theorem C106_own : forall c h s l s' w t i,
  no_stealing c -> i < c_def c ->
  (forall g, In g h -> In t (given1 g) -> gives_to i t g) ->
  pool_run c pool_new h = Some s -> pool_step c s l = Next s' -> executes s l = Some (w, t) -> w = Prim i.
Proof.
  intros c h s l s' w t i NS Hi G R E X. destruct (C106_where c h s l s' w t R E X) as (g & Hg & Ht & M). specialize (G g Hg Ht).
  assert (N : near c w i).
  { destruct g; cbn [gives_to] in G; try contradiction; destruct G as [-> ->]; cbn [may] in M; rewrite Nat2Z.id in M.
    - apply M. unfold is_thread. lia.
    - apply M. unfold is_thread. lia. }
  destruct N as (k & d & -> & N). f_equal. apply (near_self c k i NS). exists k, d. now split.
Qed.

Lemma run_app c : forall h1 h2 s, pool_run c s (h1 ++ h2) = match pool_run c s h1 with Some s1 => pool_run c s1 h2 | None => None end.
Proof. induction h1 as [|l h1 IH]; intros h2 s; cbn [app pool_run]; [reflexivity|]. destruct (pool_step c s l); trivial. Qed.

(** With stealing switched off the tasks given to a thread are executed in the order in which they were given (a task that is dropped because
    the pool is destroyed counts as done). *)
Theorem C106_order : forall c i t1 t2 g1 g2 h1 h2 h3 s,
  no_stealing c -> i < c_def c -> t1 <> t2 ->
  gives_to i t1 g1 -> gives_to i t2 g2 ->
  ~ In t2 (given (h1 ++ h2 ++ h3)) ->
  pool_run c pool_new (h1 ++ g1 :: h2 ++ g2 :: h3) = Some s ->
  In t2 (p_log s) -> In t1 (p_drop s) \/ ran_before s t1 t2.
Proof.
  intros c i t1 t2 g1 g2 h1 h2 h3 s NS Hi D G1 G2 NG R L2.
  rewrite run_app in R. destruct (pool_run c pool_new h1) as [s1|] eqn:R1; [|discriminate]. cbn [pool_run] in R.
  destruct (pool_step c s1 g1) as [| |s2] eqn:E1; try discriminate.
  destruct (pool_run_inv c h1 pool_new s1 (pinv_new c) R1) as [I1 C1]. destruct (pool_step_inv c s1 g1 s2 I1 E1) as [I2 C2].
  assert (NG' : ~ In t2 (given h1) /\ ~ In t2 (given h2) /\ ~ In t2 (given h3)).
  { unfold given in *. rewrite !flat_map_app in NG. rewrite !in_app_iff in NG. tauto. }
  destruct NG' as (N1 & N2 & N3).
  assert (Z0 : census c pool_new t2 = 0).
  { unfold census. cbn. rewrite !sumf_zero by reflexivity. reflexivity. }
  assert (Z2 : census c s2 t2 = 0).
  { rewrite C2, C1, Z0. apply cnt_notin in N1. rewrite N1. destruct g1; cbn [gives_to] in G1; try contradiction; destruct G1 as [-> _]; cbn [given1]; apply cnt_notin; intros [F|[]]; congruence. }
  assert (Q2 : queued c i t1 t2 s2).
  { destruct (gives_line c s1 g1 s2 i t1 Hi G1 E1) as [La _]. right; right. exists (line s1 i), []. split; [exact La|now right]. }
  assert (S : forall h sa sb, pinv c sa -> pool_run c sa h = Some sb -> ~ In t2 (given h) -> census c sa t2 <= 1 -> queued c i t1 t2 sa -> queued c i t1 t2 sb).
  { induction h as [|l h IH]; intros sa sb Ia Ra Na Ca Qa; cbn [pool_run] in Ra; [now injection Ra as <-|].
    destruct (pool_step c sa l) as [| |sc] eqn:Ec; try discriminate. destruct (pool_step_inv c sa l sc Ia Ec) as [Ic Cc].
    unfold given in Na. cbn [flat_map] in Na. rewrite in_app_iff in Na.
    assert (Cc2 : census c sc t2 <= 1) by (rewrite Cc; assert (Z : count_occ Nat.eq_dec (given1 l) t2 = 0) by (apply cnt_notin; tauto); lia).
    apply (IH sc sb); trivial; [tauto|]. apply (queued_step c i t1 t2 sa l sc); trivial. left. tauto. }
  rewrite run_app in R. destruct (pool_run c s2 h2) as [s3|] eqn:R2; [|discriminate]. cbn [pool_run] in R.
  destruct (pool_step c s3 g2) as [| |s4] eqn:E2; try discriminate.
  destruct (pool_run_inv c h2 s2 s3 I2 R2) as [I3 C3]. destruct (pool_step_inv c s3 g2 s4 I3 E2) as [I4 C4].
  assert (Z3 : census c s3 t2 = 0) by (rewrite C3, Z2; now apply cnt_notin in N2).
  assert (Z4 : census c s4 t2 <= 1).
  { rewrite C4, Z3. destruct g2; cbn [given1 count_occ]; try lia; destruct (Nat.eq_dec t t2); lia. }
  assert (Q4 : queued c i t1 t2 s4).
  { apply (queued_step c i t1 t2 s3 g2 s4); trivial; [now right|]. apply (S h2 s2 s3); trivial. lia. }
  pose proof (S h3 s4 s I4 R N3 Z4 Q4) as Q. destruct Q as [Q|[[_ Q]|(x & y & Q1 & Q)]]; [now left|right; now apply Q|].
  exfalso. pose proof (census_line c s i t2 Hi) as CL. apply cnt_in in L2. destruct (pool_run_inv c h3 s4 s I4 R) as [_ C5]. specialize (C5 t2).
  apply cnt_notin in N3. destruct Q as [Q|Q]; [|lia]. apply cnt_in in Q. rewrite Q1, cnt_app, cnt_cons in CL. lia.
Qed.

(** Two primary threads that may steal one task from each other, and a secondary one. Task 10 is given to thread 0 and executed by thread 1;
    task 11, a long one, by the secondary thread. With stealing off, tasks 10 and 12 wait for thread 0. *)
Definition c106_cfg := mkCfg 2 1 3 1 2 2 2 false false.
Definition c106_off := mkCfg 2 1 3 0 2 2 2 false false.
Example C106_nonvacuous :
  (exists s, pool_run c106_cfg pool_new [LInit; LSubmit 10 0 false 0; LSubmit 11 (-101) false 7; LPrim 1 true; LPrim 1 true; LPrim 1 true] = Some s
             /\ executes s (LPrim 1 true) = Some (Prim 1, 10) /\ near c106_cfg (Prim 1) 0)
  /\ (exists s, pool_run c106_cfg pool_new [LInit; LSubmit 11 (-101) false 7; LSec 0 true; LSec 0 true; LSec 0 true] = Some s
             /\ executes s (LSec 0 true) = Some (Sec 0, 11))
  /\ no_stealing c106_off
  /\ (exists s, pool_run c106_off pool_new ([LInit] ++ LSubmit 10 0 false 0 :: [LPrim 1 true; LPrim 1 true] ++ LTid 5 12 0 true true :: [LTid 5 13 0 true false] ++
                  [LPrim 1 true; LPrim 1 true; LPrim 0 true; LPrim 0 true; LPrim 0 true; LPrim 0 true; LPrim 0 true; LPrim 0 true; LPrim 0 true]) = Some s
             /\ p_log s = [12; 10] /\ ran_before s 10 12).
Proof.
  split; [|split; [|split]].
  - eexists. split; [vm_compute; reflexivity|]. split; [reflexivity|]. exists 1, 1. cbn. split; [reflexivity|]. split; [lia|]. split; [reflexivity|right; lia].
  - eexists. split; [vm_compute; reflexivity|reflexivity].
  - left. cbn. lia.
  - eexists. split; [vm_compute; reflexivity|]. split; [reflexivity|]. exists [], [], []. reflexivity.
Qed.

Print Assumptions C106_where.
Print Assumptions C106_own.
Print Assumptions C106_order.
