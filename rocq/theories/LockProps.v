(** C95: from a successful init until destroy, the settings of the elements are fixed and their nodes may spawn tasks. *)
From Verif Require Import LockSpec LockProofs PipeProofs PipeLife PipeProps StatusProofs.
From Coq Require Import Lia.
Local Open Scope nat_scope.
Local Open Scope list_scope.

(** What holds: groups, and elements owned by the pipeline or by a region, at any depth. After a successful init, whatever calls
    follow (runs, cancellation, attempts to configure, setters; not destroy), every setting call that is meant to be refused is
    refused and changes nothing; the settings are still those of init; and spawn hands the tasks to the pool. *)
Theorem C95_partial : forall ask mg p p' v conf h s vs e,
  pipe_init ask p = (p', v) -> ok_out v = true ->
  Forall no_destroy h -> lrun ask mg (mkL p' conf) h = (s, vs) ->
  watched (c_elems (pp_cfg p)) e ->
  let m := in_mutable mg (c_elems (pp_cfg p)) e in
  (forall c, meant_fixed m c -> turned_down (snd (lstep ask mg s (LSet e c))) /\ forall x, l_conf (fst (lstep ask mg s (LSet e c))) x = l_conf s x) /\
  same_but_mutable (conf e) (l_conf s e) /\ (~ m -> same_settings (conf e) (l_conf s e)) /\
  (forall r, lstep ask mg s (LSpawn e r) = (s, Val r)).
Proof.
  intros ask mg p p' v conf h s vs e Ei Hv F E W m.
  destruct (pipe_init_spec ask _ _ _ Ei) as (Hc & _ & _ & H & _). rewrite Hv in H. destruct H as (_ & _ & Hi & _ & _ & _ & Hf & _).
  destruct (lrun_live ask mg h (mkL p' conf) s vs F Hi E) as (_ & A & B & C). cbn [l_p l_conf] in *. rewrite Hc in *.
  assert (Fe : pp_flag p' e = true) by (apply Hf, watched_mgr, W). destruct (C e Fe) as [C1 C2].
  split; [|split; [exact C1|split; [exact C2|]]].
  - intros c M. cbn [lstep]. rewrite A, B, Fe. set (mu := is_mut mg _ e). set (gr := is_group _ e).
    assert (M' : meant_fixed (mu = true) c).
    { destruct c; cbn in *; auto; intro X; apply M; now apply mut_iff. }
    destruct (set_refused e mu gr (l_conf s e) c M') as [R S]. destruct (set_call e true mu gr (l_conf s e) c) as [k w]. cbn [fst snd l_conf] in *. split; [exact R|].
    intro x. subst k. unfold upd. destruct (Nat.eqb_spec x e); congruence.
  - intro r. cbn [lstep]. now rewrite A, Fe.
Qed.
Print Assumptions C95_partial.

(** What fails: nodes in a cluster, condition, multi-condition, some-group or mutable. However often the pipeline is configured,
    initialised, run and destroyed, as long as [x] is such a node, every setting call is treated as if the pipeline had never
    been initialised (the settings of other elements cannot matter), and spawn is refused. *)
Theorem C95_refuted : forall ask mg c h s vs x, NoDup (all_ids c) -> unwatched (c_elems c) x -> Forall (keeps_op x) h ->
  lrun ask mg (mkL (mkPipe false (fun _ => false) c false false []) (fun _ => conf0)) h = (s, vs) ->
  (forall n, k_timeout (l_conf s x) = 0%Z -> snd (lstep ask mg s (LSet x (SLoop n))) = Val st_default /\ k_loop (l_conf (fst (lstep ask mg s (LSet x (SLoop n)))) x) = n) /\
  (forall ty f, snd (lstep ask mg s (LSet x (SFun ty f))) = Val st_default /\ In (ty, f) (k_funs (l_conf (fst (lstep ask mg s (LSet x (SFun ty f)))) x))) /\
  (forall t w, (0 <= t)%Z -> k_loop (l_conf s x) = 1%N -> snd (lstep ask mg s (LSet x (STimeout t w))) = Val st_default /\ k_timeout (l_conf (fst (lstep ask mg s (LSet x (STimeout t w)))) x) = t) /\
  (forall n, snd (lstep ask mg s (LSet x (SName n))) = Val st_default) /\
  (forall ds, snd (lstep ask mg s (LSet x (SDepend ds))) = Val st_default) /\
  (forall a, let r := snd (lstep ask mg s (LSet x a)) in r <> thrown_init /\ r <> thrown_mutable /\ r <> Val not_suitable) /\
  (forall r, lstep ask mg s (LSpawn x r) = (s, Val not_suitable)).
Proof.
  intros ask mg c h s vs x N U F E.
  assert (Hx : pp_flag (l_p s) x = false) by (refine (lrun_unwatched ask mg x h _ _ _ F _ _ _ E); [exact N|exact U|reflexivity]).
  cbn [lstep]. rewrite Hx. destruct (l_conf s x) as [nm lp lv vi bi ti ho ma de ep asp fu] eqn:K. cbn [set_call andb].
  assert (P : forall k0 v0 m, In (k0, v0) (put k0 v0 m)) by (induction m as [|[a b] m IH]; cbn; [now left|destruct (Nat.eqb_spec a k0); cbn; auto]).
  split; [|split; [|split; [|split; [|split; [|split]]]]].
  - intros n T. cbn [k_timeout] in T. subst ti. cbn. rewrite upd_same. easy.
  - intros ty f. cbn [fst snd l_conf]. rewrite upd_same. cbn [k_funs]. split; [reflexivity|apply P].
  - intros t w Ht L. cbn [k_loop] in L. subst lp. destruct (t <? 0)%Z eqn:Et; [apply Z.ltb_lt in Et; lia|]. cbn. rewrite upd_same. easy.
  - reflexivity.
  - intro ds. rewrite Bool.andb_false_r. reflexivity.
  - intros a. cbn zeta. rewrite Bool.andb_false_r. destruct a; cbn [snd]; repeat match goal with |- context [if ?b then _ else _] => destruct b end;
      cbn [snd]; unfold thrown_init, thrown_mutable, fine, not_suitable, st_err, st_default; (split; [discriminate|split; discriminate]).
  - reflexivity.
Qed.
Print Assumptions C95_refuted.

(** A group is never made a macro: the call is refused at any time and changes nothing. A node becomes one by the call, until init. *)
Theorem C95_macro_partial : forall ask mg s e b,
  ((exists o t, sits (c_elems (pp_cfg (l_p s))) o t /\ grouped t /\ eid t = e) ->
     turned_down (snd (lstep ask mg s (LSet e (SMacro b)))) /\ forall x, l_conf (fst (lstep ask mg s (LSet e (SMacro b)))) x = l_conf s x) /\
  ((forall o t, sits (c_elems (pp_cfg (l_p s))) o t -> eid t = e -> ~ grouped t) -> pp_flag (l_p s) e = false ->
     snd (lstep ask mg s (LSet e (SMacro b))) = Val st_default /\ k_macro (l_conf (fst (lstep ask mg s (LSet e (SMacro b)))) e) = b).
Proof.
  intros ask mg s e b. cbn [lstep]. destruct (l_conf s e) as [nm lp lv vi bi ti ho ma de ep asp fu] eqn:K. cbn [set_call]. split.
  - intros G. apply group_iff in G. rewrite G. destruct (pp_flag (l_p s) e); cbn [fst snd l_conf]; (split; [exact I|]); intro x; unfold upd; destruct (Nat.eqb_spec x e); congruence.
  - intros G F. rewrite F. replace (is_group (c_elems (pp_cfg (l_p s))) e) with false; [cbn [fst snd l_conf]; now rewrite upd_same|].
    symmetry. apply Bool.not_true_iff_false. intros H. apply group_iff in H as (o & t & S & Gt & Et). exact (G o t S Et Gt).
Qed.
Print Assumptions C95_macro_partial.
(** The settings of an element change by calls on it alone; nobody having made one, it runs once, without time limit, binding and functions. *)
Theorem C95_untouched_partial : forall ask mg e h s s' vs, (forall c, ~ In (LSet e c) h) -> lrun ask mg s h = (s', vs) ->
  l_conf s' e = l_conf s e /\ (l_conf s e = conf0 -> let k := l_conf s' e in k_loop k = 1%N /\ k_timeout k = 0%Z /\ k_bind k = (-1)%Z /\ k_level k = 0%Z /\ k_visible k = true /\ k_macro k = false /\ k_deps k = [] /\ k_aspects k = [] /\ k_funs k = []).
Proof.
  intros ask mg e h s s' vs N E. assert (X : l_conf s' e = l_conf s e); [|split; [exact X|]; intros C; cbn zeta; rewrite X, C; now repeat split].
  revert s vs N E. induction h as [|o h IH]; intros s vs N E; cbn [lrun] in E; [now injection E as <- _|]. destruct (lstep ask mg s o) as [s1 v] eqn:E1. destruct (lrun ask mg s1 h) as [s2 ws] eqn:E2. injection E as <- _.
  rewrite (IH s1 ws (fun c H => N c (or_intror H)) E2). destruct o as [o|x c|x r]; cbn [lstep] in E1.
  - destruct (pipe_step ask (l_p s) o). injection E1 as <- _. reflexivity.
  - destruct (set_call _ _ _ _ _ _) as [k w]. injection E1 as <- _. cbn [l_conf]. apply upd_other. intros ->. apply (N c). now left.
  - now injection E1 as <- _.
Qed.
Print Assumptions C95_untouched_partial.

(** A pipeline with a node 1, a region 2 holding a node 3 and a cluster 4 with a node 5, and a mutable 6 with a node 7. All
    callbacks succeed. *)
Definition lock_cfg : cfg := mkC [Node 1; Region 2 [Node 3; Plain 4 [Node 5]]; Plain 6 [Node 7]] [] [] [] None [].
Definition lock_ask : pask := fun _ _ => mkPR st_default None true [].
Definition lock_pipe : pipe := mkPipe false (fun _ => false) lock_cfg false false [].
Definition lock_mg (g : nat) : bool := g =? 6.
Example C95_case :
  watched (c_elems lock_cfg) 1 /\ watched (c_elems lock_cfg) 3 /\ watched (c_elems lock_cfg) 4 /\ unwatched (c_elems lock_cfg) 5 /\ unwatched (c_elems lock_cfg) 7 /\
  NoDup (all_ids lock_cfg) /\ ok_out (snd (pipe_init lock_ask lock_pipe)) = true /\
  snd (lrun lock_ask lock_mg (mkL lock_pipe (fun _ => conf0))
    [LSet 3 (SLoop 2); LPipe OInit; LSet 1 (SLoop 5); LSet 3 (SFun 1 8); LSet 4 (SName 2); LSet 5 (SLoop 5); LPipe ORun; LSpawn 3 st_default; LSpawn 5 st_default; LSet 5 (SFun 1 9); LSet 6 (SLevel 3)])
  = [fine; fine; thrown_mutable; thrown_init; thrown_init; fine; fine; fine; Val not_suitable; fine; thrown_init].
Proof.
  assert (S2 : sits (c_elems lock_cfg) OnPipe (Region 2 [Node 3; Plain 4 [Node 5]])) by (apply sits_pipe; right; now left).
  assert (S4 : sits (c_elems lock_cfg) (OnRegion 2) (Plain 4 [Node 5])) by (eapply sits_region; [exact S2|right; now left]).
  split; [exists OnPipe, (Node 1); split; [apply sits_pipe; now left|split; [easy|auto]]|].
  split; [exists (OnRegion 2), (Node 3); split; [eapply sits_region; [exact S2|now left]|split; [easy|right; right; now exists 2]]|].
  split; [exists (OnRegion 2), (Plain 4 [Node 5]); split; [exact S4|split; [easy|now left]]|].
  split; [exists 4; eapply sits_group; [exact S4|now left]|].
  split; [exists 6; eapply sits_group; [apply sits_pipe; right; right; now left|now left]|].
  split; [cbn; repeat constructor; cbn; lia|]. split; vm_compute; reflexivity.
Qed.
