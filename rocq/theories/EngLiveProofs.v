From Verif Require Import GraphSpec EngLiveSpec DynInv DynProofs DynTerm PoolProofs PoolLive BindProofs EngPoolProofs.
From Coq Require Import Lia.
Local Open Scope nat_scope.
Local Open Scope list_scope.

(** What is left to do for the threads of the pool: a task in a queue must be taken and executed, one in the hands of a thread executed *)
Definition hands (k : cfg) (p : pool) : nat :=
  sumf (fun i => length (p_held (p_pt p i))) (seq 0 (c_def k)) + sumf (fun j => length (s_held (p_st p j))) (seq 0 (p_nsec p)).
Definition todo (k : cfg) (p : pool) : nat := 2 * load k p + hands k p.
Lemma todo_eq k p : todo k p = 2 * (sumf (fun i => length (p_wsq p i)) (seq 0 (c_def k)) + length (p_q p) + length (p_prio p)) + hands k p.
Proof. unfold todo. now rewrite load_eq. Qed.
(** A primary thread moves on with nothing *)
Inductive pmove (k : cfg) (p : pool) (i : nat) : pth -> pth -> Prop :=
| pm_loop : p_stop p i = false -> pmove k p i PLoop (PTry 0)
| pm_run : pmove k p i (PRun []) PLoop
| pm_own : p_wsq p i = [] -> pmove k p i (PTry 0) (PTry 1)
| pm_steal n j : nth_error (targets k i) n = Some j -> pmove k p i (PTry (S n)) (PTry (S (S n)))
| pm_pool n : nth_error (targets k i) n = None -> p_q p = [] -> pmove k p i (PTry (S n)) PLoop.
Lemma hands_prim k p i x : i < c_def k -> hands k (set_pt p i x) + length (p_held (p_pt p i)) = hands k p + length (p_held x).
Proof. intros H. unfold hands. pc. pose proof (sum_upd (fun y => length (p_held y)) (p_pt p) i x (c_def k) H). cbn beta in *. lia. Qed.
Lemma hands_sec k p j x : j < p_nsec p -> hands k (set_st p j x) + length (s_held (p_st p j)) = hands k p + length (s_held x).
Proof. intros H. unfold hands. pc. pose proof (sum_upd (fun y => length (s_held y)) (p_st p) j x (p_nsec p) H). cbn beta in *. lia. Qed.
Lemma wsq_sum k p i l : i < c_def k -> sumf (fun n => length (p_wsq (set_wsq p i l) n)) (seq 0 (c_def k)) + length (p_wsq p i) = sumf (fun n => length (p_wsq p n)) (seq 0 (c_def k)) + length l.
Proof. intros H. pc. exact (sum_upd (@length nat) (p_wsq p) i l (c_def k) H). Qed.
Lemma todo_prim k p i x : i < c_def k -> todo k (set_pt p i x) + length (p_held (p_pt p i)) = todo k p + length (p_held x).
Proof. intros H. rewrite !todo_eq. pose proof (hands_prim k p i x H). pc. lia. Qed.
Lemma todo_sec k p j x : j < p_nsec p -> todo k (set_st p j x) + length (s_held (p_st p j)) = todo k p + length (s_held x).
Proof. intros H. rewrite !todo_eq. pose proof (hands_sec k p j x H). pc. lia. Qed.
Lemma todo_wsq k p i l : i < c_def k -> todo k (set_wsq p i l) + 2 * length (p_wsq p i) = todo k p + 2 * length l.
Proof. intros H. rewrite !todo_eq. pose proof (wsq_sum k p i l H). replace (hands k (set_wsq p i l)) with (hands k p) by reflexivity. cbn [set_wsq p_q p_prio] in *. lia. Qed.
Lemma todo_q k p l : todo k (set_q p l) + 2 * length (p_q p) = todo k p + 2 * length l.
Proof. rewrite !todo_eq. replace (hands k (set_q p l)) with (hands k p) by reflexivity. pc. lia. Qed.
Lemma todo_prio k p l : todo k (set_prio p l) + 2 * length (p_prio p) = todo k p + 2 * length l.
Proof. rewrite !todo_eq. replace (hands k (set_prio p l)) with (hands k p) by reflexivity. pc. lia. Qed.
Lemma prim_moves k p i p' : i < c_def k -> batches_ok k -> pool_ready k p -> prim_step k p i true = Next p' ->
  todo k p' < todo k p \/ (todo k p' = todo k p /\ exists x, p' = set_pt p i x /\ pmove k p i (p_pt p i) x).
Proof.
  intros Hi B (_ & ST & LK & _) E. unfold prim_step in E. destruct (p_pt p i) as [| |[|n]|[|x r]|] eqn:P; try discriminate.
  - rewrite (ST i Hi) in E. injection E as <-. right. pose proof (todo_prim k p i (PTry 0) Hi) as T. rewrite P in T. cbn [p_held s_held length] in T. split; [lia|]. eexists. split; [reflexivity|]. now constructor; apply ST.
  - rewrite (LK i) in E. destruct (own_take k (p_wsq p i)) as [[|x a] b] eqn:T; injection E as <-.
    + right. pose proof (todo_prim k p i (PTry 1) Hi) as U. rewrite P in U. cbn [p_held s_held length] in U. split; [lia|]. eexists. split; [reflexivity|]. constructor. now apply (own_take_some k _ b).
    + left. pose proof (own_take_app _ _ _ _ T) as TA. pose proof (todo_wsq k p i b Hi) as U. pose proof (todo_prim k (set_wsq p i b) i (PRun (x :: a)) Hi) as V. cbn [set_wsq p_pt] in V. rewrite P in V. cbn [p_held length] in V.
      rewrite TA, app_length in U. cbn [length] in U. lia.
  - destruct (nth_error (targets k i) n) as [j|] eqn:N.
    + pose proof (targets_lt k i j (nth_error_In _ _ N)) as Hj. rewrite (LK j) in E. destruct (steal_take k (p_wsq p j)) as [[|x a] b] eqn:T; injection E as <-.
      * right. pose proof (todo_prim k p i (PTry (S (S n))) Hi) as U. rewrite P in U. cbn [p_held s_held length] in U. split; [lia|]. eexists. split; [reflexivity|]. now apply (pm_steal k p i n j).
      * left. pose proof (steal_take_app _ _ _ _ T) as TA. pose proof (todo_wsq k p j b Hj) as U. pose proof (todo_prim k (set_wsq p j b) i (PRun (x :: a)) Hi) as V. cbn [set_wsq p_pt] in V. rewrite P in V. cbn [p_held length] in V.
        rewrite TA, app_length, rev_length in U. cbn [length] in U. lia.
    + destruct (pool_take k (p_q p)) as [[|x a] b] eqn:T; injection E as <-.
      * right. pose proof (todo_prim k p i PLoop Hi) as U. rewrite P in U. cbn [p_held s_held length] in U. split; [lia|]. eexists. split; [reflexivity|]. apply pm_pool; [exact N|]. now apply (pool_take_some k _ b).
      * left. pose proof (pool_take_app _ _ _ _ T) as TA. pose proof (todo_q k p b) as U. pose proof (todo_prim k (set_q p b) i (PRun (x :: a)) Hi) as V. cbn [set_q p_pt] in V. rewrite P in V. cbn [p_held length] in V.
        rewrite TA, app_length in U. cbn [length] in U. lia.
  - injection E as <-. right. pose proof (todo_prim k p i PLoop Hi) as U. rewrite P in U. cbn [p_held s_held length] in U. split; [lia|]. eexists. split; [reflexivity|]. constructor.
  - injection E as <-. left. pose proof (todo_prim k p i (PRun r) Hi) as U. rewrite P in U. cbn [p_held length] in U. assert (W : todo k (add_log (set_pt p i (PRun r)) x) = todo k (set_pt p i (PRun r))) by reflexivity. lia.
Qed.
(** The same for a secondary thread *)
Inductive smove (p : pool) (j : nat) : sth -> sth -> Prop :=
| sm_loop : p_sstop p j = false -> smove p j SLoop STry
| sm_exit : p_sstop p j = true -> smove p j SLoop SExit
| sm_run : smove p j (SRun []) SLoop
| sm_pool : p_q p = [] -> smove p j STry STryPrio
| sm_prio : p_prio p = [] -> smove p j STryPrio SWait
| sm_wait : p_q p = [] -> smove p j SWait SLoop.
Lemma prio_len l a b : prio_take l = (a, b) -> a <> [] -> length a = 1 /\ length b < length l.
Proof. unfold prio_take. destruct (top l) as [e|] eqn:T; intros E N; injection E as <- <-; [|contradiction]. split; [reflexivity|]. apply drop_addr_lt. now apply top_in. Qed.
Lemma sec_moves k p j p' : j < p_nsec p -> batches_ok k -> sec_step k p j true = Next p' ->
  todo k p' < todo k p \/ (todo k p' = todo k p /\ exists x, p' = set_st p j x /\ smove p j (p_st p j) x).
Proof.
  intros Hj B E. unfold sec_step in E. destruct (p_st p j) as [| | | |[|x r]|] eqn:P; try discriminate.
  - injection E as <-. right. pose proof (todo_sec k p j (if p_sstop p j then SExit else STry) Hj) as T. rewrite P in T. split; [destruct (p_sstop p j); cbn [p_held s_held length] in T; lia|]. eexists. split; [reflexivity|].
    destruct (p_sstop p j) eqn:Q; now constructor.
  - destruct (pool_take k (p_q p)) as [[|x a] b] eqn:T; injection E as <-.
    + right. pose proof (todo_sec k p j STryPrio Hj) as U. rewrite P in U. cbn [p_held s_held length] in U. split; [lia|]. eexists. split; [reflexivity|]. constructor. now apply (pool_take_some k _ b).
    + left. pose proof (pool_take_app _ _ _ _ T) as TA. pose proof (todo_q k p b) as U. pose proof (todo_sec k (set_q p b) j (SRun (x :: a)) Hj) as V. cbn [set_q p_st] in V. rewrite P in V. cbn [s_held length] in V.
      rewrite TA, app_length in U. cbn [length] in U. lia.
  - destruct (prio_take (p_prio p)) as [[|x a] b] eqn:T; injection E as <-.
    + right. pose proof (todo_sec k p j SWait Hj) as U. rewrite P in U. cbn [p_held s_held length] in U. split; [lia|]. eexists. split; [reflexivity|]. constructor. now apply (prio_take_some _ b).
    + left. destruct (prio_len _ _ _ T ltac:(discriminate)) as [TA TB]. pose proof (todo_prio k p b) as U. pose proof (todo_sec k (set_prio p b) j (SRun (x :: a)) Hj) as V. cbn [set_prio p_st] in V. rewrite P in V. cbn [s_held] in V.
      rewrite TA in V. cbn [length] in V. lia.
  - destruct (p_q p) as [|x b] eqn:T; injection E as <-.
    + right. pose proof (todo_sec k p j SLoop Hj) as U. rewrite P in U. cbn [p_held s_held length] in U. split; [lia|]. eexists. split; [reflexivity|]. now constructor.
    + left. pose proof (todo_q k p b) as U. pose proof (todo_sec k (set_q p b) j (SRun [x]) Hj) as V. cbn [set_q p_st] in V. rewrite P in V. cbn [s_held length] in V. rewrite T in U. cbn [length] in U. lia.
  - injection E as <-. right. pose proof (todo_sec k p j SLoop Hj) as U. rewrite P in U. cbn [p_held s_held length] in U. split; [lia|]. eexists. split; [reflexivity|]. constructor.
  - injection E as <-. left. pose proof (todo_sec k p j (SRun r) Hj) as U. rewrite P in U. cbn [s_held length] in U. assert (W : todo k (add_log (set_st p j (SRun r)) x) = todo k (set_st p j (SRun r))) by reflexivity. lia.
Qed.
(** Giving a task *)
Lemma todo_submit k p t idx b a p' : pinv k p -> pool_step k p (LSubmit t idx b a) = Next p' -> todo k p' <= todo k p + 2.
Proof.
  intros I E. cbn [pool_step] in E. destruct (dispatch k (p_cur p) idx b) as [[r cur']|]; [|discriminate].
  assert (Z : forall q z, todo k (set_cur q z) = todo k q) by reflexivity. unfold dest in E. destruct ((0 <=? r)%Z && (r <? Z.of_nat (c_def k))%Z) eqn:D.
  - destruct (p_init p); [|discriminate]. destruct (p_lk p (Z.to_nat r)); [discriminate|]. injection E as <-. rewrite Z. apply Bool.andb_true_iff in D as [D1 D2]. apply Z.leb_le in D1. apply Z.ltb_lt in D2.
    pose proof (todo_wsq k p (Z.to_nat r) (p_wsq p (Z.to_nat r) ++ [t]) ltac:(lia)) as U. rewrite app_length in U. cbn [length] in U. lia.
  - destruct (r =? -101)%Z.
    + unfold push_prio in E. destruct (memb _ _); [discriminate|]. injection E as <-. pose proof (todo_prio k (set_cur p cur') (p_prio (set_cur p cur') ++ [(a, ((-101)%Z, t))])) as U. rewrite Z in U. rewrite app_length in U. cbn [length] in U. change (p_prio (set_cur p cur')) with (p_prio p) in U. lia.
    + injection E as <-. rewrite Z. pose proof (todo_q k p (p_q p ++ [t])) as U. rewrite app_length in U. cbn [length] in U. lia.
Qed.

(** What comes to the queue of long tasks, and what waits in a call of commitWithPriority *)
Definition to_prio (k : cfg) (g : plabel) : Prop :=
  match g with LPrio _ _ _ _ => True | LSubmit _ idx _ _ => idx = (-101)%Z \/ (idx = (-1)%Z /\ 101 < c_max k) | _ => False end.
Definition by_call (g : plabel) : Prop := match g with LPrio _ _ _ _ => True | _ => False end.
Record sources (k : cfg) (h : list plabel) (p : pool) : Prop :=
  { so_prio : forall t, In t (map ptask (p_prio p)) -> exists g, In g h /\ In t (given1 g) /\ to_prio k g;
    so_call : forall q t, In q (p_call p) -> In t (k_held q) -> exists g, In g h /\ In t (given1 g) /\ by_call g }.
Lemma spawn_same n : forall p, p_prio (spawn n p) = p_prio p /\ p_call (spawn n p) = p_call p.
Proof. induction n as [|n IH]; intros p; cbn [spawn]; [easy|]. now rewrite !(proj1 (IH _)), !(proj2 (IH _)). Qed.
Lemma find_call_in u l q : find_call u l = Some q -> In q l.
Proof. unfold find_call. intros H. now apply find_some in H. Qed.
Lemma push_src k h p a pr t p' : sources k h p -> (exists g, In g h /\ In t (given1 g) /\ to_prio k g) -> push_prio p a pr t = Next p' -> sources k h p'.
Proof.
  intros [A B] G E. unfold push_prio in E. destruct (memb _ _); [discriminate|]. injection E as <-. constructor; pc; [|exact B]. intros x Hx. rewrite map_app in Hx. apply in_app_or in Hx as [Hx|[<-|[]]]; [now apply A|]. exact G.
Qed.
Lemma src_step k h p l p' : sources k h p -> pool_step k p l = Next p' -> sources k (h ++ [l]) p'.
Proof.
  intros [A0 B0] E.
  assert (A : forall t, In t (map ptask (p_prio p)) -> exists g, In g (h ++ [l]) /\ In t (given1 g) /\ to_prio k g) by (intros t Ht; destruct (A0 t Ht) as (g & G1 & G2); exists g; split; [apply in_or_app; now left|exact G2]).
  assert (B : forall q t, In q (p_call p) -> In t (k_held q) -> exists g, In g (h ++ [l]) /\ In t (given1 g) /\ by_call g) by (intros q t Hq Ht; destruct (B0 q t Hq Ht) as (g & G1 & G2); exists g; split; [apply in_or_app; now left|exact G2]).
  assert (W : forall q, incl (p_prio q) (p_prio p) -> p_call q = p_call p -> sources k (h ++ [l]) q).
  { intros q Q1 Q2. constructor; [|now rewrite Q2]. intros t Ht. apply A. apply in_map_iff in Ht as (x & <- & Hx). apply in_map. now apply Q1. }
  assert (L : In l (h ++ [l])) by (apply in_or_app; right; now left).
  destruct l as [|t idx busy a|u t tid en lk|u t prio a|u n|u|i ok|j ok|i|j|j|]; cbn [pool_step] in E.
  - injection E as <-. unfold pool_init. destruct (p_init p); [now constructor|]. match goal with |- sources _ _ (spawn ?n ?q) => destruct (spawn_same n q) as [S1 S2] end. apply W; rewrite ?S1, ?S2; [apply incl_refl|reflexivity].
  - destruct (dispatch k (p_cur p) idx busy) as [[r cur']|] eqn:D; [|discriminate]. unfold dest in E. destruct ((0 <=? r)%Z && (r <? Z.of_nat (c_def k))%Z).
    + destruct (p_init p); [|discriminate]. destruct (p_lk p (Z.to_nat r)); [discriminate|]. injection E as <-. now apply W; [apply incl_refl|].
    + destruct (Z.eqb_spec r (-101)) as [->|]; [|injection E as <-; now apply W; [apply incl_refl|]].
      apply (push_src k _ (set_cur p cur') a (-101)%Z t); [now apply W; [apply incl_refl|]| |exact E]. eexists. split; [exact L|]. split; [now left|]. cbn [to_prio]. unfold dispatch in D.
      destruct (Z.eqb_spec idx (-1)) as [->|]; [|injection D as ->; now left]. right. split; [reflexivity|]. destruct (Nat.eqb_spec (c_max k) 0); [discriminate|].
      injection D as D _. destruct (Nat.le_gt_cases (c_max k) 101) as [M|M]; [|exact M]. exfalso. pose proof (Z.rem_bound_abs (p_cur p) (Z.of_nat (c_max k)) ltac:(lia)). destruct (_ && busy)%bool; [discriminate|lia].
  - destruct ((0 <=? tid)%Z && (tid <? Z.of_nat (c_def k))%Z); [|injection E as <-; now apply W; [apply incl_refl|]]. destruct (negb (p_init p)); [discriminate|].
    destruct (en && lk).
    + destruct (p_lk p (Z.to_nat tid)) as [q|]; [destruct (Nat.eqb q u); discriminate|]. injection E as <-. now apply W; [apply incl_refl|].
    + destruct (p_lk p (Z.to_nat tid)) as [q|]; [|discriminate]. destruct (Nat.eqb q u); [|discriminate]. injection E as <-. destruct en; now apply W; [apply incl_refl|].
  - destruct (find_call u (p_call p)); [discriminate|]. injection E as <-. constructor; pc; [exact A|]. intros q x [<-|Hq] Hx; [|now apply (B q)]. eexists. split; [exact L|]. cbn in Hx. destruct Hx as [<-|[]]. split; [now left|exact I].
  - destruct (find_call u (p_call p)); [discriminate|]. injection E as <-. constructor; pc; [exact A|]. intros q x [<-|Hq] Hx; [|now apply (B q)]. destruct Hx.
  - destruct (find_call u (p_call p)) as [q|] eqn:F; [|discriminate]. apply find_call_in in F.
    match type of E with context [spawn ?n ?z] => destruct (spawn_same n z) as [S1 S2] end.
    assert (S : sources k (h ++ [LCreate u]) (set_call (spawn (Z.to_nat (k_num q)) p) (end_call u (p_call p)))).
    { constructor; pc; [now rewrite S1|]. intros z x Hz. apply filter_In in Hz as [Hz _]. now apply B. }
    destruct (k_task q) as [[a [prio t]]|] eqn:T; [|now injection E as <-]. refine (push_src k _ _ a prio t p' S _ E).
    destruct (B q t F) as (g & G1 & G2 & G3); [unfold k_held; rewrite T; now left|]. exists g. split; [exact G1|]. split; [exact G2|]. now destruct g.
  - unfold prim_step in E. destruct (p_pt p i) as [| |[|n]|[|x r]|]; try discriminate; try (injection E as <-; now apply W; [apply incl_refl|]).
    + destruct (if ok then p_lk p i else Some 0), (own_take k (p_wsq p i)) as [[|x a] b]; injection E as <-; now apply W; [apply incl_refl|].
    + destruct (nth_error (targets k i) n) as [j|].
      * destruct (if ok then p_lk p j else Some 0), (steal_take k (p_wsq p j)) as [[|x a] b]; injection E as <-; now apply W; [apply incl_refl|].
      * destruct ok, (pool_take k (p_q p)) as [[|x a] b]; injection E as <-; now apply W; [apply incl_refl|].
  - unfold sec_step in E. destruct (p_st p j) as [| | | |[|x r]|]; try discriminate; try (injection E as <-; now apply W; [apply incl_refl|]).
    + destruct ok, (pool_take k (p_q p)) as [[|x a] b]; injection E as <-; now apply W; [apply incl_refl|].
    + destruct (prio_take (p_prio p)) as [a b] eqn:T. assert (P : incl b (p_prio p)).
      { unfold prio_take in T. destruct (top (p_prio p)); injection T as <- <-; [|apply incl_refl]. intros y Hy. apply filter_In in Hy. tauto. }
      destruct ok, a as [|x a]; injection E as <-; apply W; trivial; apply incl_refl.
    + destruct ok, (p_q p); injection E as <-; now apply W; [apply incl_refl|].
  - destruct (_ && _); [|discriminate]. injection E as <-. now apply W; [apply incl_refl|].
  - destruct (memb j (p_sec p)); [|discriminate]. injection E as <-. now apply W; [apply incl_refl|].
  - destruct (p_st p j); try discriminate. destruct (memb j (p_sec p)); [|discriminate]. injection E as <-. now apply W; [apply incl_refl|].
  - destruct (p_init p && _ && _); [|discriminate]. destruct (existsb _ _); [discriminate|]. injection E as <-. now apply W; [apply incl_refl|].
Qed.
Lemma src_run k : forall h1 h p p', sources k h p -> pool_run k p h1 = Some p' -> sources k (h ++ h1) p'.
Proof.
  induction h1 as [|l h1 IH]; intros h p p' S E; cbn [pool_run] in E; [injection E as <-; now rewrite app_nil_r|]. destruct (pool_step k p l) as [| |p1] eqn:E1; try discriminate.
  change (l :: h1) with ([l] ++ h1). rewrite app_assoc. apply (IH _ p1); [|exact E]. now apply (src_step k h p).
Qed.
Lemma src_new k : sources k [] pool_new.
Proof. constructor; cbn; easy. Qed.

(** What these actions leave alone *)
Definition works (g : plabel) : bool := match g with LSubmit _ _ _ _ | LPrim _ _ | LSec _ _ => true | _ => false end.
Lemma works_keeps k p g p' : works g = true -> pool_step k p g = Next p' ->
  p_init p' = p_init p /\ p_stop p' = p_stop p /\ p_lk p' = p_lk p /\ p_drop p' = p_drop p /\ p_sec p' = p_sec p /\ p_sstop p' = p_sstop p.
Proof.
  intros W E. destruct g as [|t idx busy a|u t tid en lk|u t prio a|u n|u|i ok|j ok|i|j|j|]; try discriminate; cbn [pool_step] in E.
  - destruct (dispatch k (p_cur p) idx busy) as [[r cur']|]; [|discriminate]. destruct (dest k r).
    + destruct (p_init p) eqn:PI; [|discriminate]. destruct (p_lk p i); [discriminate|]. injection E as <-. pc. now rewrite PI.
    + now injection E as <-.
    + unfold push_prio in E. destruct (memb _ _); [discriminate|]. now injection E as <-.
  - unfold prim_step in E. destruct (p_pt p i) as [| |[|n]|[|x r]|]; try discriminate; try (now injection E as <-).
    + destruct (if ok then p_lk p i else Some 0), (own_take k (p_wsq p i)) as [[|x a] b]; now injection E as <-.
    + destruct (nth_error (targets k i) n) as [j|].
      * destruct (if ok then p_lk p j else Some 0), (steal_take k (p_wsq p j)) as [[|x a] b]; now injection E as <-.
      * destruct ok, (pool_take k (p_q p)) as [[|x a] b]; now injection E as <-.
  - unfold sec_step in E. destruct (p_st p j) as [| | | |[|x r]|]; try discriminate; try (now injection E as <-).
    + destruct ok, (pool_take k (p_q p)) as [[|x a] b]; now injection E as <-.
    + destruct ok, (prio_take (p_prio p)) as [[|x a] b]; now injection E as <-.
    + destruct ok, (p_q p); now injection E as <-.
Qed.
Definition lucky (g : plabel) : bool := match g with LPrim _ ok | LSec _ ok => ok | _ => false end.
Lemma lucky_works g : lucky g = true -> works g = true.
Proof. now destruct g. Qed.
(** A step of someone at work: of the engine, perhaps with one of the pool; or of the pool alone *)
Lemma work_cases c k s l s' : at_work l = true -> estep c k s l = Some s' ->
  (exists dl, dl <> LRun /\ spur dl = 0 /\ dstep c (e_d s) dl = Some (e_d s') /\
     (e_p s' = e_p s \/ exists g, pool_step k (e_p s) g = Next (e_p s') /\ ((exists t i b a, g = LSubmit t i b a) \/ lucky g = true)))
  \/ (exists g, l = EPool g /\ lucky g = true /\ e_d s' = e_d s /\ e_who s' = e_who s /\ pool_step k (e_p s) g = Next (e_p s') /\ inside (e_who s) g = false).
Proof.
  intros A E. destruct l as [l busy a|g]; cbn [estep] in E.
  - left. assert (X : exists d, dstep c (e_d s) l = Some d /\ l <> LRun /\ spur l = 0 /\ e_d s' = d /\
       (e_p s' = e_p s \/ exists g, pool_step k (e_p s) g = Next (e_p s') /\ ((exists t i b a, g = LSubmit t i b a) \/ lucky g = true))).
    { destruct l; try discriminate; (destruct (dstep c (e_d s) _) as [d|]; [|discriminate]); exists d; (split; [reflexivity|]); (split; [discriminate|]); (split; [reflexivity|]);
        (destruct (gives (e_d s) _) as [e|]; [destruct (pool_step k (e_p s) _) as [| |p] eqn:Ep; try discriminate|]); injection E as <-; cbn [e_d e_p]; (split; [reflexivity|]);
        try (now left); right; eexists; (split; [exact Ep|]); left; now eexists _, _, _, _. }
    destruct X as (d & X1 & X2 & X3 & X4 & X5). exists l. split; [exact X2|]. split; [exact X3|]. split; [now rewrite X4|exact X5].
  - assert (L : lucky g = true) by (now destruct g). destruct (existsb _ (given1 g)); [discriminate|]. cbn [orb] in E. destruct (inside (e_who s) g) eqn:IN; [discriminate|].
    destruct (pool_step k (e_p s) g) as [| |p] eqn:Ep; try discriminate. destruct (executes (e_p s) g) as [[w t]|]; [destruct (memb t (els (c_g c)))|].
    + destruct (dstep c (e_d s) (LPick (index_of t (d_pool (e_d s))))) as [d|] eqn:Ed; [|discriminate]. injection E as <-. left. exists (LPick (index_of t (d_pool (e_d s)))).
      split; [discriminate|]. split; [reflexivity|]. split; [exact Ed|]. right. exists g. split; [exact Ep|now right].
    + injection E as <-. right. exists g. now repeat split.
    + injection E as <-. right. exists g. now repeat split.
Qed.
(** What holds all the time *)
Record good (c : dcfg) (k : cfg) (s : eng) : Prop :=
  { go_e : exists hd hp, einv c k hd hp s; go_i : Inv c (e_d s); go_r : pool_ready k (e_p s); go_l : live k (e_p s); go_p : pinv k (e_p s); go_g : long_ok c k (e_p s) }.
Lemma lucky_prim k p g p' : pinv k p -> pool_step k p g = Next p' -> match g with LPrim i _ => i < c_def k | LSec j _ => j < p_nsec p | _ => True end.
Proof.
  intros I E. destruct g as [| | | | | |i ok|j ok| | | |]; trivial; cbn [pool_step] in E.
  - destruct (Nat.lt_ge_cases i (c_def k)) as [H|H]; [exact H|]. destruct (iv_prim _ _ I i H) as [P _]. unfold prim_step in E. rewrite P in E. discriminate.
  - destruct (Nat.lt_ge_cases j (p_nsec p)) as [H|H]; [exact H|]. unfold sec_step in E. rewrite (iv_sec _ _ I j H) in E. discriminate.
Qed.
Lemma good_step c k s l s' : wf (c_g c) -> acyclic (c_g c) -> good c k s -> at_work l = true -> estep c k s l = Some s' -> good c k s'.
Proof.
  intros Hwf Ha [(hd & hp & GE) GI GR GL GP GG] A E. pose proof (estep_inv c k hd hp s l s' GE E) as GE'.
  assert (EP : forall g, works g = true -> pool_step k (e_p s) g = Next (e_p s') -> pool_ready k (e_p s') /\ live k (e_p s') /\ pinv k (e_p s') /\ long_ok c k (e_p s')).
  { intros g W Ep. destruct (works_keeps k _ g _ W Ep) as (K1 & K2 & K3 & K4 & K5 & K6). split; [|split; [|split]].
    - unfold pool_ready. now rewrite K1, K2, K3, K4.
    - exact (live_step k _ g _ GL Ep).
    - now destruct (pool_step_inv k _ g _ GP Ep).
    - destruct GG as [(j & GG)|GG]; [left; exists j; unfold sec_alive in *; now rewrite K5, K6|now right]. }
  assert (NO : e_p s' = e_p s -> pool_ready k (e_p s') /\ live k (e_p s') /\ pinv k (e_p s') /\ long_ok c k (e_p s')) by (intros ->; exact (conj GR (conj GL (conj GP GG)))).
  destruct (work_cases c k s l s' A E) as [(dl & N & _ & D & P)|(g & -> & L & D & _ & P & _)].
  - assert (I' : Inv c (e_d s')) by (apply (Inv_step c Hwf Ha (e_d s) dl); [exact GI|intros F; now destruct N|exact D]).
    assert (X : pool_ready k (e_p s') /\ live k (e_p s') /\ pinv k (e_p s') /\ long_ok c k (e_p s')).
    { destruct P as [P|(g & P & [(t & i & b & a & ->)|L])]; [now apply NO|now apply (EP (LSubmit t i b a))|apply (EP g); [now apply lucky_works|exact P]]. }
    destruct X as (X1 & X2 & X3 & X4). constructor; trivial. eexists. eexists. exact GE'.
  - destruct (EP g (lucky_works g L) P) as (X1 & X2 & X3 & X4). constructor; trivial; [eexists; eexists; exact GE'|now rewrite D].
Qed.
(** The measure of both *)
Definition total (c : dcfg) (k : cfg) (s : eng) : nat := 3 * measure c (e_d s) + todo k (e_p s).
Lemma total_step c k s l s' : wf (c_g c) -> acyclic (c_g c) -> batches_ok k -> good c k s -> at_work l = true -> estep c k s l = Some s' ->
  total c k s' < total c k s
  \/ (total c k s' = total c k s /\ e_d s' = e_d s /\ e_who s' = e_who s /\
      ((exists i x, l = EPool (LPrim i true) /\ i < c_def k /\ e_p s' = set_pt (e_p s) i x /\ pmove k (e_p s) i (p_pt (e_p s) i) x /\ inside (e_who s) (LPrim i true) = false)
       \/ (exists j x, l = EPool (LSec j true) /\ e_p s' = set_st (e_p s) j x /\ smove (e_p s) j (p_st (e_p s) j) x /\ inside (e_who s) (LSec j true) = false))).
Proof.
  intros Hwf Ha B G A E. unfold total.
  assert (PS : forall g, lucky g = true -> pool_step k (e_p s) g = Next (e_p s') -> todo k (e_p s') < todo k (e_p s) \/ (todo k (e_p s') = todo k (e_p s) /\
     ((exists i x, g = LPrim i true /\ i < c_def k /\ e_p s' = set_pt (e_p s) i x /\ pmove k (e_p s) i (p_pt (e_p s) i) x) \/ (exists j x, g = LSec j true /\ e_p s' = set_st (e_p s) j x /\ smove (e_p s) j (p_st (e_p s) j) x)))).
  { intros g L P. pose proof (lucky_prim k _ g _ (go_p _ _ _ G) P) as R. destruct g as [| | | | | |i ok|j ok| | | |]; try discriminate; cbn [lucky] in L; subst ok; cbn [pool_step] in P.
    - destruct (prim_moves k _ i _ R B (go_r _ _ _ G) P) as [H|[H (x & X1 & X2)]]; [now left|right]. split; [exact H|]. left. now exists i, x.
    - destruct (sec_moves k _ j _ R B P) as [H|[H (x & X1 & X2)]]; [now left|right]. split; [exact H|]. right. now exists j, x. }
  destruct (work_cases c k s l s' A E) as [(dl & N & SP & D & P)|(g & -> & L & D & W & P & IN)].
  - left. pose proof (step_measure c Hwf Ha (e_d s) dl (e_d s') (go_i _ _ _ G) N D) as M. rewrite SP in M.
    assert (T : todo k (e_p s') <= todo k (e_p s) + 2).
    { destruct P as [->|(g & P & [(t & i & b & a & ->)|L])]; [lia|now apply (todo_submit k _ t i b a _ (go_p _ _ _ G))|destruct (PS g L P) as [H|[H _]]; lia]. }
    lia.
  - rewrite D. destruct (PS g L P) as [H|[H [(i & x & -> & X)|(j & x & -> & X)]]]; [left; lia|right|right].
    + split; [lia|]. split; [reflexivity|]. split; [exact W|]. left. exists i, x. tauto.
    + split; [lia|]. split; [reflexivity|]. split; [exact W|]. right. exists j, x. tauto.
Qed.

(** Who has to act, and after how many of their actions something is done *)
Definition rank_own (k : cfg) (i : nat) (x : pth) : nat :=
  match x with PTry 0 => 0 | PLoop => 1 | PTry (S n) => 2 + (length (targets k i) - n) | PRun [] => 2 | _ => 0 end.
Definition rank_pool (k : cfg) (i : nat) (x : pth) : nat :=
  let n0 := length (targets k i) in match x with PTry (S n) => n0 - n | PTry 0 => n0 + 1 | PLoop => n0 + 2 | PRun [] => n0 + 3 | _ => 0 end.
Definition rank_prio (x : sth) : nat := match x with STryPrio => 0 | STry => 1 | SLoop => 2 | SWait => 3 | SRun [] => 3 | _ => 0 end.
Inductive due (k : cfg) (s : eng) : nat -> actor -> Prop :=
| du_main : d_main (e_d s) <> MAsleep -> d_main (e_d s) <> MIdle -> due k s 0 Caller
| du_act w : In w (e_who s) -> due k s 0 (InPool w)
| du_hand i x l : i < c_def k -> p_pt (e_p s) i = PRun (x :: l) -> due k s 0 (InPool (Prim i))
| du_shand j x l : p_st (e_p s) j = SRun (x :: l) -> due k s 0 (InPool (Sec j))
| du_own i : i < c_def k -> p_wsq (e_p s) i <> [] -> e_who s = [] -> due k s (rank_own k i (p_pt (e_p s) i)) (InPool (Prim i))
| du_pool : 0 < c_def k -> p_q (e_p s) <> [] -> e_who s = [] -> due k s (rank_pool k 0 (p_pt (e_p s) 0)) (InPool (Prim 0))
| du_prio j : sec_alive (e_p s) j -> p_prio (e_p s) <> [] -> e_who s = [] -> due k s (rank_prio (p_st (e_p s) j)) (InPool (Sec j)).
Definition top_rank (k : cfg) : nat := 4 + steal_range k.
Lemma targets_len k i : length (targets k i) = steal_range k.
Proof. unfold targets. now rewrite map_length, seq_length. Qed.
Lemma rank_small k s r a : due k s r a -> r < top_rank k.
Proof.
  unfold top_rank. intros D. destruct D; try lia; unfold rank_own, rank_pool, rank_prio; rewrite ?targets_len.
  - destruct (p_pt (e_p s) i) as [| |[|n]|[|x l]|]; lia.
  - destruct (p_pt (e_p s) 0) as [| |[|n]|[|x l]|]; lia.
  - destruct (p_st (e_p s) j) as [| | | |[|x l]|]; lia.
Qed.

Lemma due_not_resting c k s r a : good c k s -> due k s r a -> ~ resting k s a.
Proof.
  intros G D R. destruct D; cbn [resting] in R; try tauto; destruct R as [R1 R]; try lia; try congruence.
  destruct (lv_s _ _ (go_l _ _ _ G) j (proj1 H)) as [_ L]. specialize (L R). destruct H. congruence.
Qed.
Lemma thr_eqb_refl w : thr_eqb w w = true.
Proof. destruct w; cbn [thr_eqb]; apply Nat.eqb_refl. Qed.
Lemma inside_in who w g : In w who -> match w, g with Prim i, LPrim j _ => i = j | Sec i, LSec j _ => i = j | _, _ => False end -> inside who g = true.
Proof.
  intros H M. destruct w as [i|i], g; try contradiction; subst; cbn [inside]; apply existsb_exists; eexists; (split; [exact H|apply thr_eqb_refl]).
Qed.
(** A step of which nothing came: what was due is still due, sooner if it was a step of the one who has to act *)
Lemma due_step c k s l s' r a : wf (c_g c) -> acyclic (c_g c) -> batches_ok k -> good c k s -> at_work l = true -> estep c k s l = Some s' -> due k s r a ->
  total c k s' < total c k s \/ (total c k s' = total c k s /\ exists r', due k s' r' a /\ r' + (if acts s l a then 1 else 0) <= r).
Proof.
  intros Hwf Ha B G A E D. destruct (total_step c k s l s' Hwf Ha B G A E) as [H|(T & ED & EW & M)]; [now left|right]. split; [exact T|].
  destruct M as [(i & x & -> & Hi & EP & PM & IN)|(j & x & -> & EP & SM & IN)].
  - destruct D as [D1 D2|w D|n y l0 Hn D|n y l0 D|n Hn D D2|D0 D D2|n D0 D D2].
    + exists 0. split; [apply du_main; now rewrite ED|]. reflexivity.
    + exists 0. split; [apply du_act; now rewrite EW|]. cbn [acts]. destruct w as [m|m]; [|lia]. destruct (Nat.eqb_spec i m) as [->|]; [|lia].
      rewrite (inside_in _ (Prim m) (LPrim m true) D eq_refl) in IN. discriminate.
    + cbn [acts]. destruct (Nat.eqb_spec i n) as [->|NE]; [rewrite D in PM; inversion PM|]. exists 0. split; [|lia]. apply (du_hand k s' n y l0 Hn). rewrite EP. pc. rewrite upd_other; congruence.
    + exists 0. split; [|cbn; lia]. apply (du_shand k s' n y l0). rewrite EP. pc. exact D.
    + cbn [acts]. destruct (Nat.eqb_spec i n) as [->|NE].
      * exists (rank_own k n x). split.
        -- replace x with (p_pt (e_p s') n) by (rewrite EP; pc; apply upd_same). apply du_own; [exact Hn|rewrite EP; exact D|now rewrite EW].
        -- inversion PM as [P1 P2|P1|P1 P2|m j N P2|m N Q P2]; cbn [rank_own]; try lia; [contradiction|]. assert (m < length (targets k n)) by (apply nth_error_Some; congruence). lia.
      * exists (rank_own k n (p_pt (e_p s) n)). split; [|lia]. replace (p_pt (e_p s) n) with (p_pt (e_p s') n) by (rewrite EP; pc; apply upd_other; congruence).
        apply du_own; [exact Hn|rewrite EP; exact D|now rewrite EW].
    + cbn [acts]. destruct (Nat.eqb_spec i 0) as [->|NE].
      * exists (rank_pool k 0 x). split.
        -- replace x with (p_pt (e_p s') 0) by (rewrite EP; pc; apply upd_same). apply du_pool; [exact D0|rewrite EP; exact D|now rewrite EW].
        -- inversion PM as [P1 P2|P1|P1 P2|m j N P2|m N Q P2]; cbn [rank_pool]; try lia; [|contradiction]. assert (m < length (targets k 0)) by (apply nth_error_Some; congruence). lia.
      * exists (rank_pool k 0 (p_pt (e_p s) 0)). split; [|lia]. replace (p_pt (e_p s) 0) with (p_pt (e_p s') 0) by (rewrite EP; pc; apply upd_other; congruence).
        apply du_pool; [exact D0|rewrite EP; exact D|now rewrite EW].
    + exists (rank_prio (p_st (e_p s) n)). split; [|cbn; lia]. replace (p_st (e_p s) n) with (p_st (e_p s') n) by (now rewrite EP). apply du_prio; [rewrite EP; exact D0|rewrite EP; exact D|now rewrite EW].
  - destruct D as [D1 D2|w D|n y l0 Hn D|n y l0 D|n Hn D D2|D0 D D2|n D0 D D2].
    + exists 0. split; [apply du_main; now rewrite ED|]. reflexivity.
    + exists 0. split; [apply du_act; now rewrite EW|]. cbn [acts]. destruct w as [m|m]; [lia|]. destruct (Nat.eqb_spec j m) as [->|]; [|lia].
      rewrite (inside_in _ (Sec m) (LSec m true) D eq_refl) in IN. discriminate.
    + exists 0. split; [|cbn; lia]. apply (du_hand k s' n y l0 Hn). rewrite EP. exact D.
    + cbn [acts]. destruct (Nat.eqb_spec j n) as [->|NE]; [rewrite D in SM; inversion SM|]. exists 0. split; [|lia]. apply (du_shand k s' n y l0). rewrite EP. pc. rewrite upd_other; congruence.
    + exists (rank_own k n (p_pt (e_p s) n)). split; [|cbn; lia]. replace (p_pt (e_p s) n) with (p_pt (e_p s') n) by (now rewrite EP). apply du_own; [exact Hn|rewrite EP; exact D|now rewrite EW].
    + exists (rank_pool k 0 (p_pt (e_p s) 0)). split; [|cbn; lia]. replace (p_pt (e_p s) 0) with (p_pt (e_p s') 0) by (now rewrite EP). apply du_pool; [exact D0|rewrite EP; exact D|now rewrite EW].
    + cbn [acts]. destruct (Nat.eqb_spec j n) as [->|NE].
      * exists (rank_prio x). split.
        -- replace x with (p_st (e_p s') n) by (rewrite EP; pc; apply upd_same). apply du_prio; [rewrite EP; exact D0|rewrite EP; exact D|now rewrite EW].
        -- destruct D0 as [_ ST]. inversion SM; cbn [rank_prio]; try lia; congruence.
      * exists (rank_prio (p_st (e_p s) n)). split; [|lia]. replace (p_st (e_p s) n) with (p_st (e_p s') n) by (rewrite EP; pc; apply upd_other; congruence).
        apply du_prio; [rewrite EP; exact D0|rewrite EP; exact D|now rewrite EW].
Qed.
Lemma total_run c k : wf (c_g c) -> acyclic (c_g c) -> batches_ok k -> forall ls s s', good c k s -> forallb at_work ls = true -> erun c k s ls = Some s' -> good c k s' /\ total c k s' <= total c k s.
Proof.
  intros Hwf Ha B. induction ls as [|l ls IH]; intros s s' G A E; cbn [erun forallb] in *; [injection E as <-; now split|]. apply Bool.andb_true_iff in A as [A1 A2].
  destruct (estep c k s l) as [s1|] eqn:E1; [|discriminate]. destruct (IH s1 s' (good_step c k s l s1 Hwf Ha G A1 E1) A2 E) as [G' T]. split; [exact G'|].
  destruct (total_step c k s l s1 Hwf Ha B G A1 E1) as [H|[H _]]; lia.
Qed.
Lemma due_run c k : wf (c_g c) -> acyclic (c_g c) -> batches_ok k -> forall ls s s' r a, good c k s -> forallb at_work ls = true -> erun c k s ls = Some s' -> due k s r a ->
  total c k s' < total c k s \/ (total c k s' = total c k s /\ exists r', due k s' r' a /\ r' + (if acted c k s ls a then 1 else 0) <= r).
Proof.
  intros Hwf Ha B. induction ls as [|l ls IH]; intros s s' r a G A E D; cbn [erun forallb acted] in *; [injection E as <-; right; split; [reflexivity|]; exists r; split; [exact D|lia]|].
  apply Bool.andb_true_iff in A as [A1 A2]. destruct (estep c k s l) as [s1|] eqn:E1; [|discriminate]. pose proof (good_step c k s l s1 Hwf Ha G A1 E1) as G1.
  destruct (total_run c k Hwf Ha B ls s1 s' G1 A2 E) as [_ TR]. destruct (due_step c k s l s1 r a Hwf Ha B G A1 E1 D) as [H|(T & r1 & D1 & R1)]; [left; lia|].
  destruct (IH s1 s' r1 a G1 A2 E D1) as [H|(T2 & r2 & D2 & R2)]; [left; lia|right]. split; [lia|]. exists r2. split; [exact D2|]. destruct (acts s l a), (acted c k s1 ls a); cbn [orb] in *; lia.
Qed.

Lemma flat_len {A} (h : A -> list nat) t : forall l, 0 < sumf (fun x => cnt t (h x)) l -> exists x, In x l /\ In t (h x).
Proof. intros l H. apply sumf_pos in H as (x & H1 & H2). exists x. split; [exact H1|]. now apply cnt_in. Qed.
(** Before the run returns someone has to act *)
Lemma due_exists c k s : wf (c_g c) -> acyclic (c_g c) -> 0 < c_workers c -> 0 < c_def k -> good c k s -> d_main (e_d s) <> MIdle -> noerr (sh_tr (d_sh (e_d s))) -> exists r a, due k s r a.
Proof.
  intros Hwf Ha Hw Hk G NI NE. assert (SL : d_main (e_d s) = MAsleep \/ d_main (e_d s) <> MAsleep) by (destruct (d_main (e_d s)); auto; right; discriminate).
  destruct SL as [SL|SL]; [|exists 0, Caller; now apply du_main]. destruct (e_who s) as [|w who] eqn:EW; [|exists 0, (InPool w); apply du_act; rewrite EW; now left].
  destruct (go_e _ _ _ G) as (hd & hp & GE). pose proof (to_len _ _ _ (ei_t _ _ _ _ _ GE)) as TL. rewrite EW in TL. cbn [length] in TL.
  assert (DA : d_act (e_d s) = []) by (destruct (d_act (e_d s)); [reflexivity|discriminate]).
  assert (DP : exists t, In t (d_pool (e_d s))).
  { destruct (progress c Hwf Ha (e_d s) (go_i _ _ _ G) Hw NI) as [(l & s1 & IL & D)|(_ & _ & _ & F)]; [|contradiction]. destruct l as [|r|i r|i|]; try contradiction; cbn [dstep] in D.
    - rewrite SL in D. discriminate.
    - rewrite DA in D. destruct i; discriminate.
    - destruct (Nat.ltb _ _); [|discriminate]. destruct (nth_error (d_pool (e_d s)) i) as [e|] eqn:En; [|discriminate]. exists e. now apply nth_error_In in En. }
  destruct DP as (t & Ht). assert (He : In t (els (c_g c))).
  { pose proof (v_phase c (e_d s) (go_i _ _ _ G)) as P. rewrite SL in P. apply (r_wfop c _ _ P (OExec t)). unfold all_ops. apply in_or_app. right. apply in_or_app. right. now apply in_map. }
  pose proof (ei_c _ _ _ _ _ GE t He) as C. apply cnt_in in Ht. destruct (go_r _ _ _ G) as (R1 & R2 & R3 & R4). pose proof (src_run k hp [] pool_new _ (src_new k) (ei_p _ _ _ _ _ GE)) as [S1 S2]. cbn [app] in S1, S2.
  unfold census in C. rewrite R4 in C. cbn [count_occ] in C.
  assert (CASES : 0 < sumf (fun i => cnt t (p_held (p_pt (e_p s) i))) (seq 0 (c_def k)) \/ 0 < sumf (fun j => cnt t (s_held (p_st (e_p s) j))) (seq 0 (p_nsec (e_p s)))
     \/ 0 < sumf (fun i => cnt t (p_wsq (e_p s) i)) (seq 0 (c_def k)) \/ 0 < cnt t (p_q (e_p s)) \/ 0 < cnt t (map ptask (p_prio (e_p s))) \/ 0 < sumf (fun q => cnt t (k_held q)) (p_call (e_p s))) by lia.
  destruct CASES as [H|[H|[H|[H|[H|H]]]]].
  - apply flat_len in H as (i & Hi & H). apply in_seq in Hi. destruct (p_pt (e_p s) i) as [| | |[|x l]|] eqn:P; try contradiction. exists 0, (InPool (Prim i)). apply (du_hand k s i x l); [lia|exact P].
  - apply flat_len in H as (j & Hj & H). destruct (p_st (e_p s) j) as [| | | |[|x l]|] eqn:P; try contradiction. exists 0, (InPool (Sec j)). now apply (du_shand k s j x l).
  - apply flat_len in H as (i & Hi & H). apply in_seq in Hi. eexists. eexists. apply (du_own k s i); [lia| |exact EW]. now destruct (p_wsq (e_p s) i).
  - apply cnt_in in H. eexists. eexists. apply du_pool; [exact Hk|now destruct (p_q (e_p s))|exact EW].
  - apply cnt_in in H. destruct (S1 t H) as (g & G1 & G2 & G3). destruct (ei_g _ _ _ _ _ GE g t G1 G2 He) as (b & a & ->). cbn [to_prio] in G3.
    destruct (go_g _ _ _ G) as [(j & SA)|[M NB]]; [eexists; eexists; apply (du_prio k s j SA); [now destruct (p_prio (e_p s))|exact EW]|].
    exfalso. destruct G3 as [G3|[_ G3]]; [now apply (NB t He)|lia].
  - apply flat_len in H as (q & Hq & H). destruct (S2 q t Hq H) as (g & G1 & G2 & G3). destruct (ei_g _ _ _ _ _ GE g t G1 G2 He) as (b & a & ->). contradiction.
Qed.

Lemma op_more c sh o r sh' new enq nt : op_sem c sh o r = (sh', new, enq, nt) -> exists x, sh_tr sh' = sh_tr sh ++ x.
Proof.
  intros E. destruct o as [x aff|x|x|x|x r0| |x|x l res|x|]; cbn [op_sem] in E.
  - destruct (isErr (sh_stat sh)); [|destruct (aff && is_default c x)]; injection E as <- <- <- <-; exists []; cbn; now rewrite app_nil_r.
  - injection E as <- <- <- <-. exists []. cbn. now rewrite app_nil_r.
  - injection E as <- <- <- <-. eexists. reflexivity.
  - destruct (isErr r); injection E as <- <- <- <-; eexists; reflexivity.
  - injection E as <- <- <- <-. exists []. cbn. now rewrite app_nil_r.
  - injection E as <- <- <- <-. exists []. cbn. now rewrite app_nil_r.
  - destruct (isErr (sh_stat sh)); [|destruct (calc_shape (c_g c) (c_bind c) x)]; injection E as <- <- <- <-; exists []; cbn; now rewrite app_nil_r.
  - destruct l as [|y l]; [destruct res|destruct ((sh_left sh y - 1 =? 0)%Z); [destruct res|]]; injection E as <- <- <- <-; exists []; cbn; now rewrite app_nil_r.
  - injection E as <- <- <- <-. exists []. cbn. now rewrite app_nil_r.
  - injection E as <- <- <- <-. exists []. cbn. now rewrite app_nil_r.
Qed.
Lemma wake_idle nt : wake nt MIdle = MIdle.
Proof. now destruct nt. Qed.
(** Nothing but run takes anything away from the trace, and nothing but run leaves the state in which run has returned *)
Lemma dstep_more c d l d' : l <> LRun -> dstep c d l = Some d' -> (exists x, sh_tr (d_sh d') = sh_tr (d_sh d) ++ x) /\ (d_main d = MIdle -> d_main d' = MIdle).
Proof.
  intros NR E. destruct l as [|r|i r|i|]; [congruence| | | |]; cbn [dstep] in E.
  - destruct (d_main d) as [| | |[|o p]|[|n]| | | | | |] eqn:Em; try discriminate;
      try (injection E as <-; split; [exists []; cbn; now rewrite app_nil_r|discriminate]).
    + injection E as <-. split; [exists []; cbn; destruct (isOK _); cbn; now rewrite app_nil_r|discriminate].
    + destruct (op_sem c (d_sh d) o r) as [[[sh' new] enq] nt] eqn:Eo. injection E as <-. split; [|discriminate]. cbn. exact (op_more c _ _ _ _ _ _ _ Eo).
  - destruct (nth_error (d_act d) i) as [[|o rest]|]; try discriminate. destruct (op_enabled (d_main d) o); [|discriminate].
    destruct (op_sem c (d_sh d) o r) as [[[sh' new] enq] nt] eqn:Eo. injection E as <-. split; [cbn; exact (op_more c _ _ _ _ _ _ _ Eo)|]. cbn. intros ->. apply wake_idle.
  - destruct (Nat.ltb _ _); [|discriminate]. destruct (nth_error _ _); [|discriminate]. injection E as <-. split; [exists []; cbn; now rewrite app_nil_r|now cbn].
  - destruct (d_main d) eqn:Em; try discriminate. injection E as <-. split; [exists []; cbn; now rewrite app_nil_r|discriminate].
Qed.
Lemma may_more c k s l s' : may_happen l = true -> estep c k s l = Some s' -> (exists x, trace (e_d s') = trace (e_d s) ++ x) /\ (d_main (e_d s) = MIdle -> d_main (e_d s') = MIdle).
Proof.
  intros A E. assert (SAME : e_d s' = e_d s -> (exists x, trace (e_d s') = trace (e_d s) ++ x) /\ (d_main (e_d s) = MIdle -> d_main (e_d s') = MIdle)) by (intros ->; split; [exists []; now rewrite app_nil_r|auto]).
  destruct l as [l b x|g]; cbn [estep] in E.
  - assert (X : exists d, dstep c (e_d s) l = Some d /\ e_d s' = d /\ l <> LRun).
    { destruct l as [|r|i r|i|]; try discriminate; (destruct (dstep c (e_d s) _) as [d|]; [|discriminate]); exists d; (split; [reflexivity|]);
        (destruct (gives (e_d s) _); [destruct (pool_step k (e_p s) _); try discriminate|]); injection E as <-; (split; [reflexivity|discriminate]). }
    destruct X as (d & D & <- & N). exact (dstep_more c _ _ _ N D).
  - destruct (existsb _ _ || _); [discriminate|]. destruct (pool_step k (e_p s) g); try discriminate. destruct (executes (e_p s) g) as [[v t]|]; [destruct (memb t _)|]; try (injection E as <-; now apply SAME).
    destruct (dstep c (e_d s) _) as [d|] eqn:D; [|discriminate]. injection E as <-. refine (dstep_more c _ _ _ _ D). discriminate.
Qed.
Lemma run_more c k : forall ls s s', forallb may_happen ls = true -> erun c k s ls = Some s' -> (exists x, trace (e_d s') = trace (e_d s) ++ x) /\ (d_main (e_d s) = MIdle -> d_main (e_d s') = MIdle).
Proof.
  induction ls as [|l ls IH]; intros s s' A E; cbn [erun forallb] in *; [injection E as <-; split; [exists []; now rewrite app_nil_r|auto]|]. apply Bool.andb_true_iff in A as [A1 A2].
  destruct (estep c k s l) as [s1|] eqn:E1; [|discriminate]. destruct (may_more c k s l s1 A1 E1) as [(x & X) I1]. destruct (IH s1 s' A2 E) as [(y & Y) I2].
  split; [exists (x ++ y); now rewrite Y, X, app_assoc|auto].
Qed.
Lemma rounds_run c k : forall s n m s', fair_rounds c k s n m s' -> exists ls, forallb may_happen ls = true /\ erun c k s ls = Some s'.
Proof.
  intros s n m s' F. induction F as [s|s ls s1 n m s2 E R F IH]; [exists []; now split|]. destruct IH as (ls2 & A & E2). exists (ls ++ ls2). split; [rewrite forallb_app; apply Bool.andb_true_iff; split; [apply R|exact A]|].
  clear -E E2. revert s E. induction ls as [|l ls IH]; intros s E; cbn [erun app] in *; [injection E as <-; exact E2|]. destruct (estep c k s l); [|discriminate]. now apply IH.
Qed.
Lemma noerr_less c k s ls s' : forallb may_happen ls = true -> erun c k s ls = Some s' -> noerr (trace (e_d s')) -> noerr (trace (e_d s)).
Proof. intros A E N. destruct (run_more c k ls s s' A E) as [(x & X) _]. intros e r H. apply (N e r). rewrite X. apply in_or_app. now left. Qed.
(** A failed attempt *)
Lemma prim_fails k p i p' : i < c_def k -> prim_step k p i false = Next p' -> prim_step k p i true = Next p' \/ exists x, p' = set_pt p i x /\ p_held (p_pt p i) = [] /\ p_held x = [].
Proof.
  intros Hi E. unfold prim_step in *. destruct (p_pt p i) as [| |[|n]|[|x r]|]; try discriminate; try (now left); right.
  - destruct (own_take k (p_wsq p i)) as [[|x a] b]; injection E as <-; now eexists.
  - destruct (nth_error (targets k i) n) as [j|]; [destruct (steal_take k (p_wsq p j)) as [[|x a] b]|destruct (pool_take k (p_q p)) as [[|x a] b]]; injection E as <-; now eexists.
Qed.
Lemma sec_fails k p j p' : sec_step k p j false = Next p' -> sec_step k p j true = Next p' \/ exists x, p' = set_st p j x /\ s_held (p_st p j) = [] /\ s_held x = [].
Proof.
  intros E. unfold sec_step in *. destruct (p_st p j) as [| | | |[|x r]|]; try discriminate; try (now left); right.
  - destruct (pool_take k (p_q p)) as [[|x a] b]; injection E as <-; now eexists.
  - destruct (prio_take (p_prio p)) as [[|x a] b]; injection E as <-; now eexists.
  - destruct (p_q p); injection E as <-; now eexists.
Qed.
Lemma todo_works k p g p' : batches_ok k -> pool_ready k p -> pinv k p -> works g = true -> pool_step k p g = Next p' -> todo k p' <= todo k p + 2.
Proof.
  intros B R P W E. pose proof (lucky_prim k _ g _ P E) as L. destruct g as [|t idx busy a| | | | |i ok|j ok| | | |]; try discriminate.
  - exact (todo_submit k p t idx busy a p' P E).
  - cbn [pool_step] in E. assert (X : prim_step k p i true = Next p' -> todo k p' <= todo k p + 2) by (intros X; destruct (prim_moves k p i p' L B R X) as [H|[H _]]; lia).
    destruct ok; [now apply X|]. destruct (prim_fails k p i p' L E) as [F|(x & -> & F1 & F2)]; [now apply X|]. pose proof (todo_prim k p i x L). rewrite F1, F2 in *. cbn [length] in *. lia.
  - cbn [pool_step] in E. assert (X : sec_step k p j true = Next p' -> todo k p' <= todo k p + 2) by (intros X; destruct (sec_moves k p j p' L B X) as [H|[H _]]; lia).
    destruct ok; [now apply X|]. destruct (sec_fails k p j p' E) as [F|(x & -> & F1 & F2)]; [now apply X|]. pose proof (todo_sec k p j x L). rewrite F1, F2 in *. cbn [length] in *. lia.
Qed.
(** A disturbance costs a limited number of rounds *)
Lemma disturbed c k s l s' : wf (c_g c) -> acyclic (c_g c) -> batches_ok k -> good c k s -> disturbs l = true -> estep c k s l = Some s' -> good c k s' /\ total c k s' <= total c k s + 17.
Proof.
  intros Hwf Ha B [(hd & hp & GE) GI GR GL GP GG] A E. pose proof (estep_inv c k hd hp s l s' GE E) as GE'.
  assert (EP : forall g, works g = true -> pool_step k (e_p s) g = Next (e_p s') -> (pool_ready k (e_p s') /\ live k (e_p s') /\ pinv k (e_p s') /\ long_ok c k (e_p s')) /\ todo k (e_p s') <= todo k (e_p s) + 2).
  { intros g W Ep. split; [|exact (todo_works k _ g _ B GR GP W Ep)]. destruct (works_keeps k _ g _ W Ep) as (K1 & K2 & K3 & K4 & K5 & K6). split; [|split; [|split]].
    - unfold pool_ready. now rewrite K1, K2, K3, K4.
    - exact (live_step k _ g _ GL Ep).
    - now destruct (pool_step_inv k _ g _ GP Ep).
    - destruct GG as [(j & GG)|GG]; [left; exists j; unfold sec_alive in *; now rewrite K5, K6|now right]. }
  assert (CASES : exists dd, (dd = None /\ e_d s' = e_d s \/ exists dl, dd = Some dl /\ dl <> LRun /\ dstep c (e_d s) dl = Some (e_d s')) /\ ((e_p s' = e_p s) \/ exists g, works g = true /\ pool_step k (e_p s) g = Next (e_p s'))).
  { destruct l as [l b x|g]; cbn [estep] in E.
    - destruct l; try discriminate. destruct (dstep c (e_d s) LSpurious) as [d|] eqn:D; [|discriminate]. cbn [gives] in E. injection E as <-. exists (Some LSpurious). split; [right; now exists LSpurious|now left].
    - assert (W : works g = true) by (destruct g; try discriminate; reflexivity). destruct (existsb _ _ || _); [discriminate|]. destruct (pool_step k (e_p s) g) as [| |p] eqn:Ep; try discriminate.
      destruct (executes (e_p s) g) as [[v t]|]; [destruct (memb t _)|].
      + destruct (dstep c (e_d s) _) as [d|] eqn:D; [|discriminate]. injection E as <-. eexists (Some _). split; [right; eexists; split; [reflexivity|]; split; [|exact D]; discriminate|right; now exists g].
      + injection E as <-. exists None. split; [now left|right; now exists g].
      + injection E as <-. exists None. split; [now left|right; now exists g]. }
  destruct CASES as (dd & CD & CP).
  assert (X : (pool_ready k (e_p s') /\ live k (e_p s') /\ pinv k (e_p s') /\ long_ok c k (e_p s')) /\ todo k (e_p s') <= todo k (e_p s) + 2).
  { destruct CP as [->|(g & W & P)]; [split; [exact (conj GR (conj GL (conj GP GG)))|lia]|now apply (EP g)]. }
  destruct X as [(X1 & X2 & X3 & X4) XT]. assert (Y : Inv c (e_d s') /\ measure c (e_d s') <= measure c (e_d s) + 5).
  { destruct CD as [(_ & ->)|(dl & _ & N & D)]; [split; [exact GI|lia]|]. split; [apply (Inv_step c Hwf Ha (e_d s) dl); [exact GI|intros F; now destruct N|exact D]|].
    pose proof (step_measure c Hwf Ha (e_d s) dl (e_d s') GI N D). assert (spur dl <= 5) by (destruct dl; cbn; lia). lia. }
  destruct Y as [Y1 Y2]. split; [constructor; trivial; eexists; eexists; exact GE'|]. unfold total. lia.
Qed.
Lemma any_run c k : wf (c_g c) -> acyclic (c_g c) -> batches_ok k -> forall ls s s', good c k s -> forallb may_happen ls = true -> erun c k s ls = Some s' ->
  good c k s' /\ total c k s' <= total c k s + 17 * hits ls.
Proof.
  intros Hwf Ha B. induction ls as [|l ls IH]; intros s s' G A E; cbn [erun forallb] in *; [injection E as <-; split; [exact G|lia]|]. apply Bool.andb_true_iff in A as [A1 A2].
  destruct (estep c k s l) as [s1|] eqn:E1; [|discriminate]. unfold hits. cbn [filter]. destruct (disturbs l) eqn:DL.
  - destruct (disturbed c k s l s1 Hwf Ha B G DL E1) as [G1 T1]. destruct (IH s1 s' G1 A2 E) as [G' T]. split; [exact G'|]. fold (hits ls) in *. cbn [length]. fold (hits ls). lia.
  - unfold may_happen in A1. rewrite DL, Bool.orb_false_r in A1. destruct (IH s1 s' (good_step c k s l s1 Hwf Ha G A1 E1) A2 E) as [G' T]. split; [exact G'|].
    destruct (total_step c k s l s1 Hwf Ha B G A1 E1) as [H|[H _]]; fold (hits ls); lia.
Qed.
Lemma no_hits : forall ls, forallb may_happen ls = true -> hits ls = 0 -> forallb at_work ls = true.
Proof.
  induction ls as [|l ls IH]; intros A H; [reflexivity|]. cbn [forallb] in *. apply Bool.andb_true_iff in A as [A1 A2]. unfold hits in H. cbn [filter] in H. unfold may_happen in A1.
  destruct (disturbs l); [discriminate|]. rewrite Bool.orb_false_r in A1. rewrite A1. cbn [andb]. now apply IH.
Qed.
(** After enough rounds the run has returned *)
Lemma rounds_end c k : wf (c_g c) -> acyclic (c_g c) -> batches_ok k -> 0 < c_workers c -> 0 < c_def k ->
  forall s n m s', fair_rounds c k s n m s' -> forall r a, good c k s -> due k s r a -> noerr (trace (e_d s')) -> (total c k s + 19 * m) * top_rank k + r < n -> d_main (e_d s') = MIdle.
Proof.
  intros Hwf Ha B Hw Hk s n m s' F. induction F as [s|s ls s1 n m s2 E R F IH]; intros r a G D N L; [lia|]. destruct R as [A R].
  destruct (rounds_run c k _ _ _ _ F) as (l2 & A2 & E2). destruct (run_more c k _ _ _ A2 E2) as [_ I2].
  assert (X : d_main (e_d s1) = MIdle \/ d_main (e_d s1) <> MIdle) by (destruct (d_main (e_d s1)); auto; right; discriminate). destruct X as [X|X]; [now apply I2|].
  destruct (any_run c k Hwf Ha B ls s s1 G A E) as [G1 T1]. pose proof (noerr_less c k _ _ _ A2 E2 N) as N1.
  destruct (due_exists c k s1 Hwf Ha Hw Hk G1 X N1) as (r1 & a1 & D1). pose proof (rank_small k _ _ _ D1) as S1.
  destruct (Nat.eq_0_gt_0_cases (hits ls)) as [Z|Z].
  - rewrite Z in *. destruct (due_run c k Hwf Ha B ls s s1 r a G (no_hits ls A Z) E D) as [T|(T & r2 & D2 & L2)].
    + apply (IH r1 a1 G1 D1 N). assert ((total c k s1 + 19 * m) * top_rank k + top_rank k <= (total c k s + 19 * (0 + m)) * top_rank k) by nia. lia.
    + apply (IH r2 a G1 D2 N). destruct (R a) as [Y|Y]; [now apply (due_not_resting c k s r a G D) in Y|]. rewrite Y in L2. rewrite T. cbn [Nat.add] in *. lia.
  - apply (IH r1 a1 G1 D1 N). assert ((total c k s1 + 19 * m) * top_rank k + 2 * top_rank k <= (total c k s + 19 * (hits ls + m)) * top_rank k) by nia. lia.
Qed.
