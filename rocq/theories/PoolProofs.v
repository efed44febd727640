From Verif Require Import PoolModel PoolSpec.
From Coq Require Import Permutation.
Local Open Scope list_scope.

Notation cnt t l := (count_occ Nat.eq_dec l t).
Lemma cnt_app t l1 l2 : cnt t (l1 ++ l2) = cnt t l1 + cnt t l2.
Proof. apply count_occ_app. Qed.
Lemma cnt_flat {A} t (f : A -> list nat) l : cnt t (flat_map f l) = sumf (fun x => cnt t (f x)) l.
Proof. induction l as [|x l IH]; cbn; [easy|]. now rewrite cnt_app, IH. Qed.
Lemma cnt_rev t l : cnt t (rev l) = cnt t l.
Proof. apply (Permutation_count_occ Nat.eq_dec). apply Permutation_sym, Permutation_rev. Qed.
Lemma sum_upd {A} (h : A -> nat) (f : nat -> A) i v n : i < n ->
  sumf (fun k => h (upd f i v k)) (seq 0 n) + h (f i) = sumf (fun k => h (f k)) (seq 0 n) + h v.
Proof.
  intros H. rewrite (sumf_change (fun k => h (upd f i v k)) (fun k => h (f k)) (seq 0 n) i); [now rewrite upd_same|apply seq_NoDup|apply in_seq; lia|].
  intros x _ Hx. now rewrite upd_other.
Qed.
Lemma sum_upd_out {A} (h : A -> nat) (f : nat -> A) i v n : n <= i -> sumf (fun k => h (upd f i v k)) (seq 0 n) = sumf (fun k => h (f k)) (seq 0 n).
Proof. intros H. apply sumf_ext. intros x Hx. apply in_seq in Hx. rewrite upd_other; [easy|lia]. Qed.

Lemma take_n_app n l a b : take_n n l = (a, b) -> l = a ++ b.
Proof.
  revert n a b. induction l as [|x r IH]; intros n a b E; cbn [take_n] in E; [now injection E as <- <-|].
  destruct (Z.eqb n 0); [now injection E as <- <-|]. destruct (take_n (n - 1) r) as [a' b'] eqn:E'. injection E as <- <-. cbn. f_equal. eauto.
Qed.
Lemma take_p_app n l a b : take_p n l = (a, b) -> l = a ++ b.
Proof.
  revert n a b. induction l as [|x r IH]; intros n a b E; cbn [take_p] in E; [now injection E as <- <-|].
  destruct (Z.leb n 0); [now injection E as <- <-|]. destruct (take_p (n - 1) r) as [a' b'] eqn:E'. injection E as <- <-. cbn. f_equal. eauto.
Qed.
Lemma take_1_app l a b : take_1 l = (a, b) -> l = a ++ b.
Proof. destruct l; cbn; intros E; now injection E as <- <-. Qed.
Lemma own_take_app c l a b : own_take c l = (a, b) -> l = a ++ b.
Proof. unfold own_take. destruct (c_batch c); [apply take_n_app|apply take_1_app]. Qed.
Lemma pool_take_app c l a b : pool_take c l = (a, b) -> l = a ++ b.
Proof. unfold pool_take. destruct (c_batch c); [apply take_p_app|apply take_1_app]. Qed.
Lemma steal_take_app c l a b : steal_take c l = (a, b) -> l = b ++ rev a.
Proof.
  unfold steal_take. intros E. destruct (if c_batch c then take_n (c_steal c) (rev l) else take_1 (rev l)) as [a' b'] eqn:E'. injection E as <- <-.
  assert (H : rev l = a' ++ b') by (destruct (c_batch c); [eapply take_n_app|eapply take_1_app]; eauto).
  rewrite <- (rev_involutive l), H. now rewrite rev_app_distr.
Qed.
Lemma top_in l e : top l = Some e -> In e l.
Proof.
  revert e. induction l as [|x r IH]; intros e E; cbn [top] in E; [discriminate|]. destruct (top r) as [y|] eqn:T.
  - destruct (Nat.leb (fst y) (fst x)); injection E as <-; [now left|right; auto].
  - injection E as <-. now left.
Qed.
Lemma top_max l e : top l = Some e -> forall x, In x l -> fst x <= fst e.
Proof.
  revert e. induction l as [|x r IH]; intros e E y Hy; cbn [top] in E; [discriminate|]. destruct (top r) as [z|] eqn:T.
  - destruct (Nat.leb_spec (fst z) (fst x)) as [L|L]; injection E as <-; destruct Hy as [->|Hy]; try lia; specialize (IH z eq_refl y Hy); lia.
  - injection E as <-. destruct Hy as [->|Hy]; [lia|]. destruct r as [|w r]; [contradiction|]. cbn in T. destruct (top r) as [v|]; [destruct (Nat.leb (fst v) (fst w))|]; discriminate.
Qed.
Lemma top_none l : top l = None -> l = [].
Proof. destruct l as [|x r]; [easy|]. cbn. destruct (top r) as [y|]; [destruct (Nat.leb (fst y) (fst x))|]; discriminate. Qed.
Definition ptask (e : nat * (Z * nat)) : nat := snd (snd e).
Lemma drop_addr_out a l : ~ In a (map fst l) -> drop_addr a l = l.
Proof.
  induction l as [|x r IH]; cbn; [easy|]. intros H. destruct (Nat.eqb_spec (fst x) a) as [E|E]; cbn; [tauto|]. f_equal. apply IH. tauto.
Qed.
Lemma drop_addr_cnt t l e : NoDup (map fst l) -> In e l -> cnt t (map ptask l) = cnt t [ptask e] + cnt t (map ptask (drop_addr (fst e) l)).
Proof.
  induction l as [|x r IH]; intros Hn Hi; [contradiction|]. cbn [map] in Hn. inversion Hn as [|? ? Hx Hr]; subst. cbn [drop_addr filter]. destruct Hi as [->|Hi].
  - rewrite Nat.eqb_refl. cbn [negb]. change (filter _ r) with (drop_addr (fst e) r). rewrite (drop_addr_out _ _ Hx). cbn [map]. change (ptask e :: map ptask r) with ([ptask e] ++ map ptask r). apply cnt_app.
  - destruct (Nat.eqb_spec (fst x) (fst e)) as [E|E]; [exfalso; apply Hx; rewrite E; now apply in_map|]. cbn [negb map]. change (filter _ r) with (drop_addr (fst e) r).
    specialize (IH Hr Hi). change (ptask x :: map ptask r) with ([ptask x] ++ map ptask r). change (ptask x :: map ptask (drop_addr (fst e) r)) with ([ptask x] ++ map ptask (drop_addr (fst e) r)).
    rewrite !cnt_app, IH. lia.
Qed.
Lemma drop_addr_nodup a l : NoDup (map fst l) -> NoDup (map fst (drop_addr a l)).
Proof.
  induction l as [|x r IH]; cbn; [easy|]. intros H. inversion H as [|? ? Hx Hr]; subst. destruct (Nat.eqb (fst x) a); cbn [negb]; [auto|]. cbn. constructor; [|auto].
  intros Hc. apply Hx. apply in_map_iff in Hc as [y [E Hy]]. apply filter_In in Hy as [Hy _]. rewrite <- E. now apply in_map.
Qed.
Lemma prio_take_cnt t l a b : NoDup (map fst l) -> prio_take l = (a, b) -> cnt t (map ptask l) = cnt t a + cnt t (map ptask b) /\ NoDup (map fst b).
Proof.
  unfold prio_take. intros Hn E. destruct (top l) as [e|] eqn:T; injection E as <- <-; [|easy]. split; [|now apply drop_addr_nodup].
  now apply drop_addr_cnt; [|apply top_in].
Qed.
Lemma targets_lt c i j : In j (targets c i) -> j < c_def c.
Proof.
  unfold targets, steal_range. intros H. apply in_map_iff in H as [k [<- Hk]]. apply in_seq in Hk. apply Nat.mod_upper_bound. lia.
Qed.

(** Where every task is *)
Definition census (c : cfg) (s : pool) (t : nat) : nat :=
  cnt t (p_log s) + sumf (fun i => cnt t (p_held (p_pt s i))) (seq 0 (c_def c)) + sumf (fun j => cnt t (s_held (p_st s j))) (seq 0 (p_nsec s))
  + sumf (fun i => cnt t (p_wsq s i)) (seq 0 (c_def c)) + cnt t (p_q s) + cnt t (map ptask (p_prio s)) + sumf (fun k => cnt t (k_held k)) (p_call s) + cnt t (p_drop s).
Record pinv (c : cfg) (s : pool) : Prop :=
  { iv_sec : forall j, p_nsec s <= j -> p_st s j = SExit;
    iv_prim : forall i, c_def c <= i -> p_pt s i = PNone /\ p_wsq s i = [];
    iv_off : p_init s = false -> forall i, p_pt s i = PNone /\ p_wsq s i = [];
    iv_prio : NoDup (map fst (p_prio s));
    iv_call : NoDup (map k_who (p_call s));
    iv_list : forall j, In j (p_sec s) -> j < p_nsec s }.
Ltac pc := cbn [set_wsq set_lk set_q set_prio set_cur set_pt set_st set_call add_log p_init p_cur p_wsq p_lk p_q p_prio p_pt p_stop p_st p_sstop p_nsec p_sec p_call p_log p_drop] in *.
Lemma cnt_cons t x l : cnt t (x :: l) = cnt t [x] + cnt t l.
Proof. change (x :: l) with ([x] ++ l). apply cnt_app. Qed.
Lemma spawn_inv c k : forall s, pinv c s -> pinv c (spawn k s) /\ (forall t, census c (spawn k s) t = census c s t) /\ p_prio (spawn k s) = p_prio s /\ p_call (spawn k s) = p_call s.
Proof.
  induction k as [|k IH]; intros s I; [easy|]. cbn [spawn].
  set (s1 := mkPool _ _ _ _ _ _ _ _ _ _ _ _ _ _ _).
  assert (I1 : pinv c s1).
  { destruct I as [A B C D E F]. constructor; pc; unfold s1; pc; try easy.
    - intros j Hj. rewrite upd_other by lia. apply A. lia.
    - intros j Hj. apply in_app_iff in Hj. destruct Hj as [Hj|[<-|[]]]; [|lia]. specialize (F j Hj). lia. }
  destruct (IH s1 I1) as [J1 [J2 [J3 J4]]]. split; [easy|]. split; [|now rewrite J3, J4].
  intros t. rewrite J2. unfold census, s1. pc. rewrite seq_S, sumf_app. cbn [sumf Nat.add].
  rewrite upd_same. cbn [s_held count_occ]. rewrite (sum_upd_out (fun x => cnt t (s_held x))) by lia. lia.
Qed.
Lemma find_call_some u l k : find_call u l = Some k -> In k l /\ k_who k = u.
Proof. unfold find_call. intros E. apply find_some in E. destruct E as [A B]. now apply Nat.eqb_eq in B. Qed.
Lemma find_call_none u l : find_call u l = None -> ~ In u (map k_who l).
Proof.
  unfold find_call. intros E Hi. apply in_map_iff in Hi as [k [<- Hk]]. apply (find_none _ _ E) in Hk. now rewrite Nat.eqb_refl in Hk.
Qed.
Lemma end_call_out u l : ~ In u (map k_who l) -> end_call u l = l.
Proof.
  induction l as [|x r IH]; cbn; [easy|]. intros H. destruct (Nat.eqb_spec (k_who x) u) as [E|E]; cbn; [tauto|]. f_equal. apply IH. tauto.
Qed.
Lemma end_call_sum u l k (f : pcall -> nat) : NoDup (map k_who l) -> In k l -> k_who k = u -> sumf f l = f k + sumf f (end_call u l).
Proof.
  intros Hn Hi Hu. subst u. induction l as [|x r IH]; [contradiction|]. cbn [map] in Hn. inversion Hn as [|? ? Hx Hr]; subst. cbn [end_call filter]. destruct Hi as [->|Hi].
  - rewrite Nat.eqb_refl. cbn [negb]. change (filter _ r) with (end_call (k_who k) r). now rewrite end_call_out.
  - destruct (Nat.eqb_spec (k_who x) (k_who k)) as [E|E]; [exfalso; apply Hx; rewrite E; now apply in_map|]. cbn [negb sumf]. change (filter _ r) with (end_call (k_who k) r).
    rewrite (IH Hr Hi). lia.
Qed.
Lemma end_call_nodup u l : NoDup (map k_who l) -> NoDup (map k_who (end_call u l)).
Proof.
  induction l as [|x r IH]; cbn; [easy|]. intros H. inversion H as [|? ? Hx Hr]; subst. destruct (Nat.eqb (k_who x) u); cbn [negb]; [auto|]. cbn. constructor; [|auto].
  intros Hc. apply Hx. apply in_map_iff in Hc as [y [E Hy]]. apply filter_In in Hy as [Hy _]. rewrite <- E. now apply in_map.
Qed.
Lemma push_prio_inv c s a prio t s' : pinv c s -> push_prio s a prio t = Next s' ->
  pinv c s' /\ (forall x, census c s' x = census c s x + cnt x [t]) /\ s' = set_prio s (p_prio s ++ [(a, (prio, t))]).
Proof.
  unfold push_prio. intros I E. destruct (memb a (map fst (p_prio s))) eqn:M; [discriminate|]. injection E as <-. apply memb_false in M. split; [|split; [|easy]].
  - destruct I as [A B C D E F]. constructor; pc; try easy. rewrite map_app. cbn. apply NoDup_app_iff. split; [easy|]. split; [constructor; [easy|constructor]|].
    intros x Hx [<-|[]]. contradiction.
  - intros x. unfold census. pc. rewrite map_app, cnt_app. cbn [map]. unfold ptask at 2. cbn [snd]. lia.
Qed.
Lemma prim_step_inv c s i ok s' : pinv c s -> prim_step c s i ok = Next s' -> pinv c s' /\ forall t, census c s' t = census c s t.
Proof.
  intros I E. unfold prim_step in E. destruct (p_pt s i) as [| |k|l|] eqn:Ep; try discriminate.
  all: assert (Hi : i < c_def c) by (destruct (Nat.lt_ge_cases i (c_def c)) as [H|H]; [easy|]; destruct (iv_prim _ _ I i H) as [H' _]; congruence).
  all: assert (Hon : p_init s = true) by (destruct (p_init s) eqn:Z; [easy|]; destruct (iv_off _ _ I Z i) as [H' _]; congruence).
  all: assert (IK : forall x, pinv c (set_pt s i x)) by (intros x; destruct I as [A B C D F G]; constructor; pc; try easy; [intros j Hj; rewrite upd_other by lia; auto|congruence]).
  all: assert (CK : forall x t, census c (set_pt s i x) t + cnt t (p_held (p_pt s i)) = census c s t + cnt t (p_held x))
    by (intros x t; unfold census; pc; pose proof (sum_upd (fun y => cnt t (p_held y)) (p_pt s) i x (c_def c) Hi); lia).
  - injection E as <-. split; [apply IK|]. intros t. specialize (CK (if p_stop s i then PExit else PTry 0) t). rewrite Ep in CK. destruct (p_stop s i); cbn in *; lia.
  - assert (SQ : forall j x a b k', j < c_def c -> (forall t, cnt t (p_wsq s j) = cnt t (x :: a) + cnt t b) -> p_pt s i = PTry k' ->
      pinv c (set_pt (set_wsq s j b) i (PRun (x :: a))) /\ forall t, census c (set_pt (set_wsq s j b) i (PRun (x :: a))) t = census c s t).
    { intros j x a b k' Hj Hl Hp. split.
      - destruct I as [A B C D F G]. constructor; pc; try easy; [|congruence]. intros m Hm. rewrite !upd_other by lia. auto.
      - intros t. unfold census. pc. pose proof (sum_upd (fun y => cnt t (p_held y)) (p_pt s) i (PRun (x :: a)) (c_def c) Hi) as S1.
        pose proof (sum_upd (fun y => cnt t y) (p_wsq s) j b (c_def c) Hj) as S2. cbn beta in S1, S2. specialize (Hl t). rewrite Hp in S1. cbn [p_held] in S1. change (cnt t []) with 0 in S1. lia. }
    assert (NX : forall x, p_held x = [] -> pinv c (set_pt s i x) /\ forall t, census c (set_pt s i x) t = census c s t).
    { intros x Hx. split; [apply IK|]. intros t. specialize (CK x t). rewrite Ep, Hx in CK. cbn [p_held] in CK. change (cnt t []) with 0 in CK. lia. }
    destruct k as [|k].
    + destruct (if ok then p_lk s i else Some 0), (own_take c (p_wsq s i)) as [[|x a] b] eqn:Et; injection E as <-; try (now apply NX).
      apply SQ with (k' := 0); [easy|intros t; rewrite (own_take_app _ _ _ _ Et); apply cnt_app|easy].
    + destruct (nth_error (targets c i) k) as [j|] eqn:En.
      * apply nth_error_In, targets_lt in En. destruct (if ok then p_lk s j else Some 0), (steal_take c (p_wsq s j)) as [[|x a] b] eqn:Et; injection E as <-; try (now apply NX).
        apply SQ with (k' := S k); [easy|intros t; rewrite (steal_take_app _ _ _ _ Et), cnt_app, cnt_rev; lia|easy].
      * destruct ok, (pool_take c (p_q s)) as [[|x a] b] eqn:Et; injection E as <-; try (now apply NX). split.
        -- destruct I as [A B C D F G]. constructor; pc; try easy; [|congruence]. intros m Hm. rewrite !upd_other by lia. auto.
        -- intros t. unfold census. pc. pose proof (sum_upd (fun y => cnt t (p_held y)) (p_pt s) i (PRun (x :: a)) (c_def c) Hi) as S1. rewrite Ep in S1. cbn [p_held] in S1. change (cnt t []) with 0 in S1.
           apply pool_take_app in Et. rewrite Et, cnt_app. lia.
  - destruct l as [|x r]; injection E as <-.
    + split; [apply IK|]. intros t. specialize (CK PLoop t). rewrite Ep in CK. cbn in *. lia.
    + split; [destruct (IK (PRun r)) as [A B C D F G]; constructor; pc; easy|]. intros t. specialize (CK (PRun r) t). rewrite Ep in CK. cbn [p_held] in CK. rewrite (cnt_cons t x r) in CK.
      unfold census in *. pc. rewrite (cnt_cons t x (p_log s)). lia.
Qed.
Lemma sec_step_inv c s j ok s' : pinv c s -> sec_step c s j ok = Next s' -> pinv c s' /\ forall t, census c s' t = census c s t.
Proof.
  intros I E. unfold sec_step in E. destruct (Nat.lt_ge_cases j (p_nsec s)) as [Hj|Hj]; [|now rewrite (iv_sec _ _ I j Hj) in E].
  assert (IK : forall x, pinv c (set_st s j x)) by (intros x; destruct I as [A B C D F G]; constructor; pc; try easy; intros k Hk; rewrite upd_other by lia; auto).
  assert (CK : forall x t, census c (set_st s j x) t + cnt t (s_held (p_st s j)) = census c s t + cnt t (s_held x))
    by (intros x t; unfold census; pc; pose proof (sum_upd (fun y => cnt t (s_held y)) (p_st s) j x (p_nsec s) Hj); lia).
  assert (NX : forall x, s_held (p_st s j) = [] -> s_held x = [] -> pinv c (set_st s j x) /\ forall t, census c (set_st s j x) t = census c s t).
  { intros x Hp Hx. split; [apply IK|]. intros t. specialize (CK x t). rewrite Hp, Hx in CK. lia. }
  assert (QX : forall l b, s_held (p_st s j) = [] -> p_q s = l ++ b -> pinv c (set_st (set_q s b) j (SRun l)) /\ forall t, census c (set_st (set_q s b) j (SRun l)) t = census c s t).
  { intros l b Hp Hq. split; [destruct (IK (SRun l)) as [A B C D F G]; constructor; pc; easy|]. intros t. specialize (CK (SRun l) t). rewrite Hp in CK. cbn [s_held] in CK. change (cnt t []) with 0 in CK.
    unfold census in *. pc. rewrite Hq in *. rewrite cnt_app in *. lia. }
  destruct (p_st s j) as [| | | |l|] eqn:Ep; try discriminate.
  - injection E as <-. apply NX; [easy|]. now destruct (p_sstop s j).
  - destruct ok, (pool_take c (p_q s)) as [[|x a] b] eqn:Et; injection E as <-; try (now apply NX). apply QX; [easy|]. now apply pool_take_app in Et.
  - destruct ok, (prio_take (p_prio s)) as [[|x a] b] eqn:Et; injection E as <-; try (now apply NX). split.
    + destruct (IK (SRun (x :: a))) as [A B C D F G]; constructor; pc; try easy. now apply (prio_take_cnt 0 _ _ _ D Et).
    + intros t. specialize (CK (SRun (x :: a)) t). cbn [s_held] in CK. change (cnt t []) with 0 in CK. destruct (prio_take_cnt t _ _ _ (iv_prio _ _ I) Et) as [P _].
      unfold census in *. pc. lia.
  - destruct ok, (p_q s) as [|x b] eqn:Eq; injection E as <-; try (now apply NX). now apply QX.
  - destruct l as [|x r]; injection E as <-; [now apply NX|]. split; [destruct (IK (SRun r)) as [A B C D F G]; constructor; pc; easy|]. intros t. specialize (CK (SRun r) t). cbn [s_held] in CK.
    rewrite (cnt_cons t x r) in CK. unfold census in *. pc. rewrite (cnt_cons t x (p_log s)). lia.
Qed.
Lemma pool_step_inv c s l s' : pinv c s -> pool_step c s l = Next s' -> pinv c s' /\ forall t, census c s' t = census c s t + cnt t (given1 l).
Proof.
  intros I E.
  assert (WP : forall i t, i < c_def c -> p_init s = true -> pinv c (set_wsq s i (p_wsq s i ++ [t])) /\ forall x, census c (set_wsq s i (p_wsq s i ++ [t])) x = census c s x + cnt x [t]).
  { intros i t Hi Hon. split; [destruct I as [A B C D F G]; constructor; pc; try easy; [|congruence]; intros m Hm; rewrite upd_other by lia; auto|].
    intros x. unfold census. pc. pose proof (sum_upd (fun y => cnt x y) (p_wsq s) i (p_wsq s i ++ [t]) (c_def c) Hi) as S2. cbn beta in S2. rewrite cnt_app in S2. lia. }
  assert (QP : forall t, pinv c (set_q s (p_q s ++ [t])) /\ forall x, census c (set_q s (p_q s ++ [t])) x = census c s x + cnt x [t]).
  { intros t. split; [destruct I as [A B C D F G]; constructor; pc; easy|]. intros x. unfold census. pc. rewrite cnt_app. lia. }
  destruct l as [|t idx busy a|p t tid en lk|u t prio a|u n|u|i ok|j ok|i|j|j|]; cbn [pool_step given1] in *.
  - injection E as <-. unfold pool_init. destruct (p_init s) eqn:Ei; [split; [easy|intros t; cbn; lia]|].
    set (s1 := mkPool _ _ _ _ _ _ _ _ _ _ _ _ _ _ _).
    assert (I1 : pinv c s1).
    { destruct I as [A B C D F G]. constructor; unfold s1; pc; try easy. intros m Hm. split; [|easy]. destruct (Nat.ltb_spec m (c_def c)); [lia|easy]. }
    destruct (spawn_inv c (Z.to_nat (real_size c s (c_sec c))) s1 I1) as [J1 [J2 _]]. split; [easy|]. intros t. rewrite J2. unfold census, s1. pc. rewrite cnt_app.
    rewrite (sumf_zero (fun i => cnt t (p_held (if i <? c_def c then PLoop else PNone)))) by (intros x _; now destruct (x <? c_def c)).
    rewrite (sumf_zero (fun i => cnt t [])) by easy. rewrite (sumf_zero (fun i => cnt t (p_held (p_pt s i)))) by (intros x _; destruct (iv_off _ _ I Ei x) as [-> _]; easy).
    rewrite (sumf_zero (fun i => cnt t (p_wsq s i))) by (intros x _; destruct (iv_off _ _ I Ei x) as [_ ->]; easy). cbn. lia.
  - destruct (dispatch c (p_cur s) idx busy) as [[r cur']|]; [|discriminate]. destruct (dest c r) as [i| |] eqn:Ed.
    + destruct (p_init s) eqn:Ei; [|discriminate]. destruct (p_lk s i); [discriminate|]. injection E as <-.
      assert (Hi : i < c_def c).
      { unfold dest in Ed. destruct (Z.leb_spec 0 r), (Z.ltb_spec r (Z.of_nat (c_def c))); cbn in Ed; try (destruct (Z.eqb r (-101)); discriminate). injection Ed as <-. lia. }
      destruct (WP i t Hi eq_refl) as [W1 W2]. split; [destruct W1 as [A B C D F G]; constructor; pc; easy|]. exact W2.
    + injection E as <-. destruct (QP t) as [W1 W2]. split; [destruct W1 as [A B C D F G]; constructor; pc; easy|]. exact W2.
    + assert (I1 : pinv c (set_cur s cur')) by (destruct I as [A B C D F G]; constructor; pc; easy). destruct (push_prio_inv c _ _ _ _ _ I1 E) as [W1 [W2 _]]. split; [easy|exact W2].
  - destruct (Z.leb_spec 0 tid), (Z.ltb_spec tid (Z.of_nat (c_def c))); cbn [andb] in E; try (injection E as <-; apply QP).
    destruct (p_init s) eqn:Ei; cbn [negb] in E; [|discriminate]. destruct (WP (Z.to_nat tid) t ltac:(lia) eq_refl) as [W1 W2].
    assert (LK : forall o, pinv c (set_lk (set_wsq s (Z.to_nat tid) (p_wsq s (Z.to_nat tid) ++ [t])) (Z.to_nat tid) o)) by (intros o; destruct W1 as [A B C D F G]; constructor; pc; easy).
    destruct (en && lk).
    + destruct (p_lk s (Z.to_nat tid)) as [q|]; [destruct (Nat.eqb q p); discriminate|]. injection E as <-. split; [apply LK|exact W2].
    + destruct (p_lk s (Z.to_nat tid)) as [q|]; [|discriminate]. destruct (Nat.eqb q p); [|discriminate]. injection E as <-. destruct en; (split; [|exact W2]); [apply LK|easy].
  - destruct (find_call u (p_call s)) eqn:Ef; [discriminate|]. injection E as <-. split.
    + destruct I as [A B C D F G]; constructor; pc; try easy. cbn. constructor; [now apply find_call_none|easy].
    + intros x. unfold census. pc. cbn [sumf]. unfold k_held at 1. cbn [k_task]. lia.
  - destruct (find_call u (p_call s)) eqn:Ef; [discriminate|]. injection E as <-. split.
    + destruct I as [A B C D F G]; constructor; pc; try easy. cbn. constructor; [now apply find_call_none|easy].
    + intros x. unfold census. pc. cbn [sumf]. unfold k_held at 1. cbn [k_task]. cbn [count_occ]. lia.
  - destruct (find_call u (p_call s)) as [k|] eqn:Ef; [|discriminate]. apply find_call_some in Ef. destruct Ef as [Hk Hu].
    destruct (spawn_inv c (Z.to_nat (k_num k)) s I) as [J1 [J2 [J3 J4]]].
    set (s1 := set_call (spawn (Z.to_nat (k_num k)) s) (end_call u (p_call s))) in *.
    assert (I1 : pinv c s1) by (destruct J1 as [A B C D F G]; constructor; unfold s1; pc; try easy; apply end_call_nodup; now rewrite <- J4).
    assert (C1 : forall t, census c s1 t + cnt t (k_held k) = census c s t).
    { intros t. rewrite <- J2. unfold census, s1. pc. rewrite J4. rewrite (end_call_sum u (p_call s) k (fun k => cnt t (k_held k)) (iv_call _ _ I) Hk Hu). lia. }
    destruct (k_task k) as [[a [prio t]]|] eqn:Ek.
    + destruct (push_prio_inv c _ _ _ _ _ I1 E) as [W1 [W2 _]]. split; [easy|]. intros x. rewrite W2. specialize (C1 x). unfold k_held in C1. rewrite Ek in C1. cbn [count_occ] in *. lia.
    + injection E as <-. split; [easy|]. intros x. specialize (C1 x). unfold k_held in C1. rewrite Ek in C1. cbn [count_occ] in *. lia.
  - destruct (prim_step_inv c s i ok s' I E) as [A B]. split; [easy|]. intros t. rewrite B. cbn. lia.
  - destruct (sec_step_inv c s j ok s' I E) as [A B]. split; [easy|]. intros t. rewrite B. cbn. lia.
  - destruct (p_init s && Nat.ltb i (c_def c)); [|discriminate]. injection E as <-. split; [destruct I as [A B C D F G]; constructor; pc; easy|]. intros t. unfold census. pc. cbn [count_occ]. lia.
  - destruct (memb j (p_sec s)); [|discriminate]. injection E as <-. split; [destruct I as [A B C D F G]; constructor; pc; easy|]. intros t. unfold census. pc. cbn [count_occ]. lia.
  - destruct (p_st s j); try discriminate. destruct (memb j (p_sec s)); [|discriminate]. injection E as <-. split.
    + destruct I as [A B C D F G]; constructor; pc; try easy. intros m Hm. apply filter_In in Hm. now apply G.
    + intros t. unfold census. pc. cbn [count_occ]. lia.
  - destruct (p_init s && _ && _) eqn:Eg; [|discriminate]. destruct (existsb _ _); [discriminate|]. injection E as <-.
    apply Bool.andb_true_iff in Eg. destruct Eg as [Eg Es]. apply Bool.andb_true_iff in Eg. destruct Eg as [_ Ep]. rewrite forallb_forall in Ep. split.
    + destruct I as [A B C D F G]; constructor; pc; easy.
    + intros t. unfold census. pc. rewrite cnt_app, cnt_flat. cbn [p_held].
      rewrite (sumf_zero (fun i => cnt t [])) by easy. rewrite (sumf_zero (fun i => cnt t (p_held (p_pt s i)))); [cbn; lia|].
      intros i Hi. specialize (Ep i Hi). now destruct (p_pt s i).
Qed.
Lemma pinv_new c : pinv c pool_new.
Proof. constructor; cbn; try easy; try (intros; lia); constructor. Qed.
Lemma pool_run_inv c : forall ls s s', pinv c s -> pool_run c s ls = Some s' -> pinv c s' /\ forall t, census c s' t = census c s t + cnt t (given ls).
Proof.
  induction ls as [|l r IH]; intros s s' I E; cbn [pool_run] in E.
  - injection E as <-. split; [easy|]. intros t. cbn. lia.
  - destruct (pool_step c s l) as [| |s1] eqn:E1; try discriminate. destruct (pool_step_inv c s l s1 I E1) as [I1 C1]. destruct (IH s1 s' I1 E) as [I2 C2]. split; [easy|].
    intros t. rewrite C2, C1. unfold given. cbn [flat_map]. rewrite cnt_app. fold (given r). lia.
Qed.
