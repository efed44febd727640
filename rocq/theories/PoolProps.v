(** Property theorems on the thread pool. *)
From Verif Require Import PoolModel PoolSpec PoolProofs.
From Coq Require Import Permutation.
Local Open Scope list_scope.
Ltac dmx E := repeat match type of E with
  | Next _ = _ => fail 1
  | context [match ?x with _ => _ end] => lazymatch x with context [match _ with _ => _ end] => fail | _ => destruct x eqn:? end
  end; try discriminate.
Ltac nx E := dmx E; injection E as <-; pc.

(** C40: after every history, with any number of threads, callers and tasks, every task given has been run, is in the hands of one
    thread, in one queue, in a call that has not returned, or was dropped by destroy; each in exactly one of these places. *)
Theorem C40_accounted : forall c ls s, pool_run c pool_new ls = Some s ->
  Permutation (given ls) (p_log s ++ in_threads c s ++ in_queues c s ++ in_calls s ++ p_drop s).
Proof.
  intros c ls s E. destruct (pool_run_inv c ls pool_new s (pinv_new c) E) as [_ C]. apply (Permutation_count_occ Nat.eq_dec). intros t. specialize (C t).
  assert (Z0 : census c pool_new t = 0). { unfold census. cbn. rewrite !sumf_zero by easy. easy. }
  rewrite Z0 in C. cbn [Nat.add] in C. rewrite <- C. unfold census, in_threads, in_queues, in_calls. rewrite !cnt_app, !cnt_flat. change (map ptask (p_prio s)) with (map (fun e => snd (snd e)) (p_prio s)). lia.
Qed.
(** C40: a task given once is run at most once, and not while it is anywhere else. *)
Theorem C40_once : forall c ls s t, pool_run c pool_new ls = Some s -> count_occ Nat.eq_dec (given ls) t = 1 ->
  count_occ Nat.eq_dec (p_log s) t <= 1 /\
  (In t (p_log s) -> ~ In t (in_threads c s ++ in_queues c s ++ in_calls s ++ p_drop s)) /\
  (~ In t (p_log s) -> In t (in_threads c s ++ in_queues c s ++ in_calls s ++ p_drop s)).
Proof.
  intros c ls s t E H1. pose proof (C40_accounted c ls s E) as P. rewrite (Permutation_count_occ Nat.eq_dec) in P. specialize (P t). rewrite H1, cnt_app in P.
  set (rest := in_threads c s ++ in_queues c s ++ in_calls s ++ p_drop s) in *. split; [lia|]. split.
  - intros Hi Hr. apply (count_occ_In Nat.eq_dec) in Hi. apply (count_occ_In Nat.eq_dec) in Hr. lia.
  - intros Hi. apply (count_occ_not_In Nat.eq_dec) in Hi. apply (count_occ_In Nat.eq_dec). lia.
Qed.
Lemma drop_step c s l s' : pool_step c s l = Next s' -> l <> LFinish -> (l = LInit -> p_init s = true) -> p_drop s' = p_drop s /\ p_init s' = (p_init s || match l with LInit => true | _ => false end)%bool.
Proof.
  assert (SP : forall k s, p_drop (spawn k s) = p_drop s /\ p_init (spawn k s) = p_init s).
  { induction k as [|k IH]; intros x; [easy|]. cbn [spawn]. now rewrite !(proj1 (IH _)), !(proj2 (IH _)). }
  assert (PP : forall s a p t s', push_prio s a p t = Next s' -> p_drop s' = p_drop s /\ p_init s' = p_init s).
  { unfold push_prio. intros x a p t y. destruct (memb _ _); [discriminate|]. intros H. now injection H as <-. }
  intros E Hf Hi. destruct l as [|t idx busy a|p t tid en lk|u t prio a|u n|u|i ok|j ok|i|j|j|]; cbn [pool_step] in E; try contradiction; rewrite ?Bool.orb_false_r.
  - injection E as <-. unfold pool_init. rewrite (Hi eq_refl). split; [easy|]. now rewrite (Hi eq_refl).
  - destruct (dispatch c (p_cur s) idx busy) as [[r cur']|]; [|discriminate]. destruct (dest c r).
    + destruct (p_init s) eqn:Ei; [|discriminate]. destruct (p_lk s i); [discriminate|]. now injection E as <-.
    + now injection E as <-.
    + now apply PP in E.
  - destruct (_ && _)%bool; [|now injection E as <-]. destruct (negb (p_init s)); [discriminate|]. destruct (en && lk)%bool.
    + destruct (p_lk s _) as [q|]; [destruct (Nat.eqb q p); discriminate|]. now injection E as <-.
    + destruct (p_lk s _) as [q|]; [|discriminate]. destruct (Nat.eqb q p); [|discriminate]. injection E as <-. now destruct en.
  - destruct (find_call u (p_call s)); [discriminate|]. now injection E as <-.
  - destruct (find_call u (p_call s)); [discriminate|]. now injection E as <-.
  - destruct (find_call u (p_call s)) as [k|]; [|discriminate]. destruct (k_task k) as [[a [prio t]]|]; [apply PP in E|injection E as <-]; pc; now rewrite ?(proj1 E), ?(proj2 E), (proj1 (SP _ _)), (proj2 (SP _ _)).
  - unfold prim_step in E. nx E; auto.
  - unfold sec_step in E. nx E; auto.
  - destruct (_ && _)%bool; [|discriminate]. now injection E as <-.
  - destruct (memb _ _); [|discriminate]. now injection E as <-.
  - destruct (p_st s j); try discriminate. destruct (memb _ _); [|discriminate]. now injection E as <-.
Qed.
Lemma drop_run c : forall ls s s', pool_run c s ls = Some s' -> p_init s = true -> ~ In LFinish ls -> p_drop s' = p_drop s /\ p_init s' = true.
Proof.
  induction ls as [|l r IH]; intros s s' E Hi Hf; cbn [pool_run] in E; [now injection E as <-|]. destruct (pool_step c s l) as [| |s1] eqn:E1; try discriminate.
  destruct (drop_step c s l s1 E1) as [D I]; [intros ->; apply Hf; now left|easy|]. rewrite Hi in I. cbn in I.
  destruct (IH s1 s' E I) as [D2 I2]; [intros H; apply Hf; now right|]. split; [congruence|easy].
Qed.
(** C40: from init on, as long as destroy has not run to its end, no task is lost: what has not been run is in a queue, a thread or a
    call that has not returned. *)
Theorem C40_kept : forall c ls s, pool_run c pool_new (LInit :: ls) = Some s -> ~ In LFinish ls -> p_drop s = [] /\
  Permutation (given ls) (p_log s ++ in_threads c s ++ in_queues c s ++ in_calls s).
Proof.
  intros c ls s E Hf. pose proof (C40_accounted c _ s E) as P. assert (D : p_drop s = []).
  { cbn [pool_run pool_step] in E. assert (SP : forall k s, p_drop (spawn k s) = p_drop s /\ p_init (spawn k s) = p_init s).
    { induction k as [|k IH]; intros x; [easy|]. cbn [spawn]. now rewrite !(proj1 (IH _)), !(proj2 (IH _)). }
    destruct (drop_run c ls _ s E) as [D _]; [|easy|]; unfold pool_init in *; cbn [p_init pool_new] in *; rewrite ?(proj1 (SP _ _)), ?(proj2 (SP _ _)) in *; easy. }
  split; [easy|]. rewrite D, app_nil_r in P. exact P.
Qed.
(** C40: exactly which calls are undefined. Every other step, in every interleaving, is defined. *)
Theorem C40_defined : forall c s l, pool_step c s l = Undef <->
  (exists t busy a, l = LSubmit t (-1) busy a /\ c_max c = 0) \/
  (exists t idx busy a r cur i, l = LSubmit t idx busy a /\ dispatch c (p_cur s) idx busy = Some (r, cur) /\ dest c r = QOwn i /\ p_init s = false) \/
  (exists p t tid en lk, l = LTid p t tid en lk /\ (0 <= tid < Z.of_nat (c_def c))%Z /\
     (p_init s = false \/ (en = true /\ lk = true /\ p_lk s (Z.to_nat tid) = Some p) \/ (~ (en = true /\ lk = true) /\ p_lk s (Z.to_nat tid) <> Some p))) \/
  (l = LFinish /\ p_init s = true /\ (forall i, i < c_def c -> p_pt s i = PExit) /\ (forall j, In j (p_sec s) -> p_st s j = SExit) /\ exists i, i < c_def c /\ p_lk s i <> None).
Proof.
  intros c s l. split.
  - intros E. destruct l as [|t idx busy a|p t tid en lk|u t prio a|u n|u|i ok|j ok|i|j|j|]; cbn [pool_step] in E; try discriminate.
    + destruct (dispatch c (p_cur s) idx busy) as [[r cur']|] eqn:Ed.
      * destruct (dest c r) as [i| |] eqn:Eq; [|discriminate|unfold push_prio in E; destruct (memb _ _); discriminate].
        destruct (p_init s) eqn:Ei; [destruct (p_lk s i); discriminate|]. right. left. now exists t, idx, busy, a, r, cur', i.
      * unfold dispatch in Ed. destruct (Z.eqb_spec idx (-1)) as [->|]; [|discriminate]. destruct (Nat.eqb_spec (c_max c) 0) as [H|]; [|discriminate]. left. now exists t, busy, a.
    + destruct (Z.leb_spec 0 tid), (Z.ltb_spec tid (Z.of_nat (c_def c))); cbn [andb] in E; try discriminate. right. right. left. exists p, t, tid, en, lk. split; [easy|]. split; [lia|].
      destruct (p_init s); [|now left]. cbn [negb] in E. right. destruct (en && lk)%bool eqn:Eb.
      * apply Bool.andb_true_iff in Eb. destruct (p_lk s (Z.to_nat tid)) as [q|]; [|discriminate]. destruct (Nat.eqb_spec q p) as [Hq|]; [|discriminate]. left. destruct Eb. subst. easy.
      * right. split; [intros [-> ->]; discriminate|]. destruct (p_lk s (Z.to_nat tid)) as [q|]; [|discriminate]. destruct (Nat.eqb_spec q p) as [Hq|]; [destruct en; discriminate|]. congruence.
    + destruct (find_call u (p_call s)); discriminate.
    + destruct (find_call u (p_call s)); discriminate.
    + destruct (find_call u (p_call s)) as [k|]; [|discriminate]. destruct (k_task k) as [[a [prio t]]|]; [|discriminate]. unfold push_prio in E. destruct (memb _ _); discriminate.
    + unfold prim_step in E. nx E; auto.
    + unfold sec_step in E. nx E; auto.
    + destruct (_ && _)%bool; discriminate.
    + destruct (memb _ _); discriminate.
    + destruct (p_st s j); try discriminate. destruct (memb _ _); discriminate.
    + destruct (p_init s && _ && _)%bool eqn:Eg; [|discriminate]. destruct (existsb _ _) eqn:Ex; [|discriminate]. right. right. right.
      apply Bool.andb_true_iff in Eg. destruct Eg as [Eg Es]. apply Bool.andb_true_iff in Eg. destruct Eg as [Ei Ep]. rewrite forallb_forall in Ep, Es. apply existsb_exists in Ex. destruct Ex as [i [Hi Hl]].
      do 2 (split; [easy|]). split; [intros k Hk; specialize (Ep k ltac:(apply in_seq; lia)); now destruct (p_pt s k)|]. split; [intros k Hk; specialize (Es k Hk); now destruct (p_st s k)|].
      exists i. apply in_seq in Hi. split; [lia|]. now destruct (p_lk s i).
  - intros [[t [busy [a [-> H]]]]|[[t [idx [busy [a [r [cur [i [-> [Ed [Eq Ei]]]]]]]]]]|[[p [t [tid [en [lk [-> [Ht H]]]]]]]|[-> [Ei [Hp [Hs [i [Hi Hl]]]]]]]]]; cbn [pool_step].
    + unfold dispatch. cbn. now rewrite H.
    + now rewrite Ed, Eq, Ei.
    + destruct (Z.leb_spec 0 tid), (Z.ltb_spec tid (Z.of_nat (c_def c))); try lia. cbn [andb]. destruct H as [->|[[-> [-> Hk]]|[Hn Hk]]]; [easy| |].
      * destruct (p_init s); [|easy]. cbn [negb andb]. rewrite Hk. now rewrite Nat.eqb_refl.
      * destruct (p_init s); [|easy]. cbn [negb]. destruct (en && lk)%bool eqn:Eb; [apply Bool.andb_true_iff in Eb; tauto|].
        destruct (p_lk s (Z.to_nat tid)) as [q|]; [|easy]. destruct (Nat.eqb_spec q p) as [->|]; [congruence|easy].
    + rewrite Ei. cbn [andb]. rewrite (proj2 (forallb_forall _ _)); [|intros k Hk; apply in_seq in Hk; rewrite Hp; [easy|lia]].
      rewrite (proj2 (forallb_forall _ _)); [|intros k Hk; now rewrite Hs]. cbn [andb]. rewrite (proj2 (existsb_exists _ _)); [easy|]. exists i. split; [apply in_seq; lia|]. now destruct (p_lk s i).
Qed.
(** C40: the mutex a caller keeps between calls of executeWithTid is the one of the batch it has begun: so a caller that begins a batch
    (enable, lockable), continues it (not enable) and ends it (enable, not lockable) meets none of the undefined cases. *)
Theorem C40_batches : forall c ls s i, pool_run c pool_new ls = Some s -> p_lk s i = batcher c (rev ls) i.
Proof.
  intros c ls. induction ls as [|l ls IH] using rev_ind; intros s i E.
  - cbn in E. injection E as <-. easy.
  - assert (SPLIT : exists s0, pool_run c pool_new ls = Some s0 /\ pool_step c s0 l = Next s).
    { revert E. generalize pool_new. clear IH. induction ls as [|x r IH]; intros z E; cbn [pool_run app] in *.
      - exists z. split; [easy|]. destruct (pool_step c z l); try discriminate. now injection E as ->.
      - destruct (pool_step c z x); try discriminate. now apply IH. }
    destruct SPLIT as [s0 [E0 E1]]. specialize (IH s0). rewrite rev_app_distr. cbn [rev app].
    assert (HO : forall j, c_def c <= j -> p_lk s0 j = None).
    { intros j Hj. rewrite (IH j E0). clear - Hj. induction (rev ls) as [|x r IH]; [easy|]. cbn [batcher]. destruct x; try exact IH. destruct (Nat.ltb_spec j (c_def c)); [lia|]. now rewrite Bool.andb_false_r. }
    assert (HI : p_init s0 = false -> p_lk s0 i = None).
    { clear - E0 HO. intros Hi. destruct (Nat.lt_ge_cases i (c_def c)) as [Hd|Hd]; [|now apply HO]. clear HO.
      assert (K : forall r z, pool_run c z r = Some s0 -> (p_init z = false -> p_lk z i = None) -> p_lk s0 i = None).
      { clear E0. induction r as [|x r IH]; intros z E Hz; cbn [pool_run] in E; [injection E as <-; auto|]. destruct (pool_step c z x) as [| |z1] eqn:Ez; try discriminate. apply (IH z1 E). intros Hz1.
        assert (SP : forall k s, p_lk (spawn k s) = p_lk s /\ p_init (spawn k s) = p_init s) by (induction k as [|k IHk]; intros y; [easy|]; cbn [spawn]; now rewrite !(proj1 (IHk _)), !(proj2 (IHk _))).
        assert (PP : forall s a p t s', push_prio s a p t = Next s' -> p_lk s' = p_lk s /\ p_init s' = p_init s) by (unfold push_prio; intros y a p t y'; destruct (memb _ _); [discriminate|]; intros H; now injection H as <-).
        destruct x as [|t idx busy a|p t tid en lk|u t prio a|u n|u|k ok|k ok|k|k|k|]; cbn [pool_step] in Ez.
        - injection Ez as <-. unfold pool_init in *. destruct (p_init z) eqn:Q; [congruence|]. now rewrite (proj1 (SP _ _)).
        - destruct (dispatch c (p_cur z) idx busy) as [[r' cur']|]; [|discriminate]. destruct (dest c r').
          + destruct (p_init z) eqn:Q; [|discriminate]. destruct (p_lk z i0); [discriminate|]. injection Ez as <-. pc. congruence.
          + injection Ez as <-. pc. auto.
          + apply PP in Ez. destruct Ez as [-> Ez]. pc. apply Hz. congruence.
        - destruct (_ && _)%bool; [|injection Ez as <-; pc; auto]. destruct (p_init z) eqn:Q; cbn [negb] in Ez; [|discriminate]. exfalso. destruct (en && lk)%bool.
          + destruct (p_lk z _) as [q|]; [destruct (Nat.eqb q p); discriminate|]. injection Ez as <-. pc. congruence.
          + destruct (p_lk z _) as [q|]; [|discriminate]. destruct (Nat.eqb q p); [|discriminate]. injection Ez as <-. destruct en; pc; congruence.
        - destruct (find_call u (p_call z)); [discriminate|]. injection Ez as <-. pc. auto.
        - destruct (find_call u (p_call z)); [discriminate|]. injection Ez as <-. pc. auto.
        - destruct (find_call u (p_call z)) as [q|]; [|discriminate]. destruct (k_task q) as [[a [prio t]]|]; [apply PP in Ez; destruct Ez as [-> Ez]|injection Ez as <-]; pc; rewrite (proj1 (SP _ _)); apply Hz.
          + rewrite <- Hz1, Ez. symmetry. apply SP. + rewrite <- Hz1. symmetry. apply SP.
        - unfold prim_step in Ez. nx Ez; auto.
        - unfold sec_step in Ez. nx Ez; auto.
        - destruct (_ && _)%bool; [|discriminate]. injection Ez as <-. pc. auto.
        - destruct (memb _ _); [|discriminate]. injection Ez as <-. pc. auto.
        - destruct (p_st z k); try discriminate. destruct (memb _ _); [|discriminate]. injection Ez as <-. pc. auto.
        - destruct (p_init z && _ && _)%bool; [|discriminate]. destruct (existsb _ _) eqn:Ex; [discriminate|]. injection Ez as <-. pc. clear - Ex Hd.
          destruct (p_lk z i) eqn:Q; [|easy]. exfalso. assert (T : existsb (fun i => match p_lk z i with Some _ => true | None => false end) (seq 0 (c_def c)) = true) by (apply existsb_exists; exists i; split; [apply in_seq; lia|now rewrite Q]).
          congruence. }
      apply (K ls pool_new E0). easy. }
    pose proof (IH i E0) as IH'. clear IH.
    assert (SP : forall k s, p_lk (spawn k s) = p_lk s) by (induction k as [|k IHk]; intros y; [easy|]; cbn [spawn]; now rewrite !IHk).
    assert (PP : forall s a p t s', push_prio s a p t = Next s' -> p_lk s' = p_lk s) by (unfold push_prio; intros y a p t y'; destruct (memb _ _); [discriminate|]; intros H; now injection H as <-).
    destruct l as [|t idx busy a|p t tid en lk|u t prio a|u n|u|k ok|k ok|k|k|k|]; cbn [pool_step batcher] in *; rewrite <- IH'; clear IH'.
    + injection E1 as <-. unfold pool_init. destruct (p_init s0) eqn:Q; [easy|]. rewrite SP. pc. symmetry. auto.
    + destruct (dispatch c (p_cur s0) idx busy) as [[r' cur']|]; [|discriminate]. destruct (dest c r').
      * destruct (p_init s0); [|discriminate]. destruct (p_lk s0 i0) eqn:Q; [discriminate|]. now injection E1 as <-.
      * now injection E1 as <-.
      * apply PP in E1. now rewrite E1.
    + destruct (Z.eqb_spec tid (Z.of_nat i)) as [->|Hne]; cbn [andb].
      * rewrite Nat2Z.id in E1. destruct (Z.leb_spec 0 (Z.of_nat i)); [|lia]. cbn [andb] in E1. destruct (Z.ltb_spec (Z.of_nat i) (Z.of_nat (c_def c))), (Nat.ltb_spec i (c_def c)); try lia; [|now injection E1 as <-].
        destruct (p_init s0); cbn [negb] in E1; [|discriminate]. destruct en, lk; cbn [andb] in E1.
        -- destruct (p_lk s0 i) as [q|]; [destruct (Nat.eqb q p); discriminate|]. injection E1 as <-. pc. now rewrite upd_same.
        -- destruct (p_lk s0 i) as [q|]; [|discriminate]. destruct (Nat.eqb q p); [|discriminate]. injection E1 as <-. pc. now rewrite upd_same.
        -- destruct (p_lk s0 i) as [q|] eqn:Q; [|discriminate]. destruct (Nat.eqb q p); [|discriminate]. injection E1 as <-. pc. easy.
        -- destruct (p_lk s0 i) as [q|] eqn:Q; [|discriminate]. destruct (Nat.eqb q p); [|discriminate]. injection E1 as <-. pc. easy.
      * destruct (Z.leb_spec 0 tid); cbn [andb] in E1; [|now injection E1 as <-]. destruct (Z.ltb_spec tid (Z.of_nat (c_def c))); [|now injection E1 as <-].
        assert (Hn : i <> Z.to_nat tid) by lia. destruct (p_init s0); cbn [negb] in E1; [|discriminate]. destruct (en && lk)%bool.
        -- destruct (p_lk s0 (Z.to_nat tid)) as [q|]; [destruct (Nat.eqb q p); discriminate|]. injection E1 as <-. pc. now rewrite upd_other.
        -- destruct (p_lk s0 (Z.to_nat tid)) as [q|]; [|discriminate]. destruct (Nat.eqb q p); [|discriminate]. injection E1 as <-. destruct en; pc; [now rewrite upd_other|easy].
    + destruct (find_call u (p_call s0)); [discriminate|]. now injection E1 as <-.
    + destruct (find_call u (p_call s0)); [discriminate|]. now injection E1 as <-.
    + destruct (find_call u (p_call s0)) as [q|]; [|discriminate]. destruct (k_task q) as [[a [prio t]]|]; [apply PP in E1; rewrite E1|injection E1 as <-]; pc; now rewrite SP.
    + unfold prim_step in E1. nx E1; auto.
    + unfold sec_step in E1. nx E1; auto.
    + destruct (_ && _)%bool; [|discriminate]. now injection E1 as <-.
    + destruct (memb _ _); [|discriminate]. now injection E1 as <-.
    + destruct (p_st s0 k); try discriminate. destruct (memb _ _); [|discriminate]. now injection E1 as <-.
    + destruct (p_init s0 && _ && _)%bool; [|discriminate]. destruct (existsb _ _); [discriminate|]. now injection E1 as <-.
Qed.
Definition c40_cfg : cfg := mkCfg 2 1 4 1 2 2 2 true false.
Definition c40_run : list plabel :=
  [LInit; LSubmit 10 (-1) false 0; LSubmit 11 (-1) false 0; LSubmit 12 0 false 0; LSubmit 13 (-2) false 0; LPrio 7 14 5 100; LCreate 7;
   LTid 3 20 1 true true; LTid 3 21 1 false false; LTid 3 22 1 true false;
   LPrim 0 true; LPrim 0 true; LPrim 0 true; LPrim 1 true; LPrim 1 true; LPrim 1 true; LSec 0 true; LSec 0 true; LSec 0 true; LPrim 0 true; LPrim 1 false].
Example C40_case : exists s, pool_run c40_cfg pool_new c40_run = Some s /\ p_log s = [20; 12; 13; 11; 10] /\ in_queues c40_cfg s = [21; 22; 14] /\
  count_occ Nat.eq_dec (given c40_run) 11 = 1 /\ ~ In LFinish c40_run.
Proof. eexists. split; [vm_compute; reflexivity|]. do 3 (split; [vm_compute; reflexivity|]). cbn. intuition discriminate. Qed.
Print Assumptions C40_accounted. Print Assumptions C40_once. Print Assumptions C40_kept. Print Assumptions C40_defined. Print Assumptions C40_batches.
