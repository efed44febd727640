(** Proofs about progress in the thread pool. *)
From Verif Require Import PoolModel PoolSpec PoolProofs PoolProps.
From Coq Require Import Permutation.
Local Open Scope list_scope.

Lemma take_n_some n l b : n <> 0%Z -> take_n n l = ([], b) -> l = [].
Proof. destruct l as [|x r]; [easy|]. cbn [take_n]. intros H. destruct (Z.eqb_spec n 0); [easy|]. destruct (take_n (n - 1) r). discriminate. Qed.
Lemma take_p_some n l b : (0 < n)%Z -> take_p n l = ([], b) -> l = [].
Proof. destruct l as [|x r]; [easy|]. cbn [take_p]. intros H. destruct (Z.leb_spec n 0); [lia|]. destruct (take_p (n - 1) r). discriminate. Qed.
Lemma take_1_some l b : take_1 l = ([], b) -> l = [].
Proof. now destruct l. Qed.
Lemma own_take_some c l b : batches_ok c -> own_take c l = ([], b) -> l = [].
Proof. unfold own_take, batches_ok. intros B. destruct (c_batch c); [apply take_n_some; now apply B|apply take_1_some]. Qed.
Lemma pool_take_some c l b : batches_ok c -> pool_take c l = ([], b) -> l = [].
Proof. unfold pool_take, batches_ok. intros B. destruct (c_batch c); [apply take_p_some; now apply B|apply take_1_some]. Qed.
Lemma steal_take_some c l b : batches_ok c -> steal_take c l = ([], b) -> l = [].
Proof.
  unfold steal_take, batches_ok. intros B E. assert (H : rev l = []).
  { destruct (c_batch c).
    - destruct (take_n (c_steal c) (rev l)) as [x y] eqn:T. injection E as -> _. apply (take_n_some _ _ y) in T; [easy|now apply B].
    - destruct (take_1 (rev l)) as [x y] eqn:T. injection E as -> _. now apply take_1_some in T. }
  apply (f_equal (@rev nat)) in H. now rewrite rev_involutive in H.
Qed.
Lemma prio_take_some l b : prio_take l = ([], b) -> l = [].
Proof. unfold prio_take. destruct (top l) as [e|] eqn:T; [discriminate|]. intros _. now apply top_none. Qed.

(** Tasks in the queues *)
Definition load (c : cfg) (s : pool) : nat := length (in_queues c s).
Lemma load_eq c s : load c s = sumf (fun i => length (p_wsq s i)) (seq 0 (c_def c)) + length (p_q s) + length (p_prio s).
Proof.
  unfold load, in_queues. rewrite !app_length, map_length, Nat.add_assoc. do 2 f_equal. induction (seq 0 (c_def c)) as [|x r IH]; [easy|]. cbn. now rewrite app_length, IH.
Qed.
(** What the steps of threads do to the queues *)
Lemma drop_addr_len a l : length (drop_addr a l) <= length l.
Proof. unfold drop_addr. induction l as [|x r IH]; [easy|]. cbn. destruct (negb _); cbn; lia. Qed.
Lemma drop_addr_lt e l : In e l -> length (drop_addr (fst e) l) < length l.
Proof.
  induction l as [|x r IH]; [easy|]. intros [->|H]; cbn [drop_addr filter length].
  - rewrite Nat.eqb_refl. cbn [negb]. pose proof (drop_addr_len (fst e) r). unfold drop_addr in *. lia.
  - specialize (IH H). unfold drop_addr in IH. destruct (negb _); cbn [length]; lia.
Qed.
Definition smaller (c : cfg) (s s' : pool) : Prop := p_lk s' = p_lk s /\ load c s' <= load c s /\ forall q, incl (content s' q) (content s q).
Lemma smaller_refl c s s' : p_lk s' = p_lk s -> p_wsq s' = p_wsq s -> p_q s' = p_q s -> p_prio s' = p_prio s -> smaller c s s'.
Proof. intros A B C D. unfold smaller. rewrite !load_eq, A, B, C, D. split; [easy|]. split; [lia|]. intros []; cbn [content]; rewrite ?B, ?C, ?D; apply incl_refl. Qed.
Lemma smaller_trans c s1 s2 s3 : smaller c s1 s2 -> smaller c s2 s3 -> smaller c s1 s3.
Proof. intros [A [B C]] [A' [B' C']]. split; [congruence|]. split; [lia|]. intros q x Hx. now apply C, C'. Qed.
Lemma smaller_empty c s s' q : smaller c s s' -> content s q = [] -> content s' q = [].
Proof. intros [_ [_ H]] E. specialize (H q). rewrite E in H. now apply incl_l_nil in H. Qed.
Lemma wsq_smaller c s s' i b x : p_lk s' = p_lk s -> p_wsq s' = upd (p_wsq s) i b -> p_q s' = p_q s -> p_prio s' = p_prio s -> i < c_def c ->
  incl b (p_wsq s i) -> length b + x <= length (p_wsq s i) -> smaller c s s' /\ load c s' + x <= load c s.
Proof.
  intros A B C D Hi Hb Hl. pose proof (sum_upd (@length nat) (p_wsq s) i b (c_def c) Hi) as S1. cbn beta in S1.
  assert (L : load c s' + x <= load c s) by (rewrite !load_eq, B, C, D; lia). split; [|easy]. split; [easy|]. split; [lia|].
  intros [j| |]; cbn [content]; rewrite ?B, ?C, ?D; try apply incl_refl. unfold upd. destruct (Nat.eqb_spec j i) as [->|]; [easy|apply incl_refl].
Qed.
Lemma q_smaller c s s' b x : p_lk s' = p_lk s -> p_wsq s' = p_wsq s -> p_q s' = b -> p_prio s' = p_prio s ->
  incl b (p_q s) -> length b + x <= length (p_q s) -> smaller c s s' /\ load c s' + x <= load c s.
Proof.
  intros A B C D Hb Hl. assert (L : load c s' + x <= load c s) by (rewrite !load_eq, B, C, D; lia). split; [|easy]. split; [easy|]. split; [lia|].
  intros [j| |]; cbn [content]; rewrite ?B, ?C, ?D; easy || apply incl_refl.
Qed.
Lemma prio_smaller c s s' e : p_lk s' = p_lk s -> p_wsq s' = p_wsq s -> p_q s' = p_q s -> p_prio s' = drop_addr (fst e) (p_prio s) -> In e (p_prio s) ->
  smaller c s s' /\ load c s' + 1 <= load c s.
Proof.
  intros A B C D Hb. pose proof (drop_addr_lt e _ Hb). assert (L : load c s' + 1 <= load c s) by (rewrite !load_eq, B, C, D; lia). split; [|easy]. split; [easy|]. split; [lia|].
  intros [j| |]; cbn [content]; rewrite ?B, ?C, ?D; try apply incl_refl. intros x Hx. apply in_map_iff in Hx as [y [<- Hy]]. apply filter_In in Hy. apply (in_map (fun e0 => snd (snd e0))). tauto.
Qed.

(** One step of a primary thread: either it takes something, or moves on. *)
Definition early (c : cfg) (i k : nat) : list queue := match k with 0 => [] | S m => QOwn i :: map QOwn (firstn m (targets c i)) end.
Definition polled (c : cfg) (i : nat) : list queue := QOwn i :: map QOwn (targets c i) ++ [QPool].
Lemma polled_iff c i q : In q (polled c i) <-> prim_polls c i q.
Proof.
  unfold polled, prim_polls. cbn [In]. rewrite in_app_iff, in_map_iff. cbn [In]. destruct q as [j| |]; split; try easy.
  - intros [E|[[x [E H]]|[E|[]]]]; try discriminate; injection E as ->; auto.
  - intros [->|H]; [now left|]. right. left. eauto.
  - intros _. auto.
  - intros [E|[[x [E H]]|[E|[]]]]; discriminate.
Qed.
Definition clean (s : pool) (l : list queue) : Prop := forall q, In q l -> content s q = [].
Lemma clean_smaller c s s' l : smaller c s s' -> clean s l -> clean s' l.
Proof. intros S C q Hq. eapply smaller_empty; eauto. Qed.
Lemma early_next c i k j : nth_error (targets c i) k = Some j -> early c i (S (S k)) = early c i (S k) ++ [QOwn j].
Proof.
  intros H. cbn [early app]. f_equal. change [QOwn j] with (map QOwn [j]). rewrite <- map_app. f_equal. revert k H. induction (targets c i) as [|x r IH]; intros [|k] H; try discriminate.
  - injection H as ->. easy. - cbn [firstn app]. f_equal. now apply IH.
Qed.
Lemma early_last c i k : nth_error (targets c i) k = None -> forall q, In q (polled c i) -> In q (early c i (S k)) \/ q = QPool.
Proof.
  intros H q Hq. apply nth_error_None in H. cbn [early]. rewrite firstn_all2 by easy. unfold polled in Hq. cbn [In] in *. rewrite in_app_iff in Hq. cbn [In] in Hq. intuition.
Qed.
Definition stage_of (x : pth) : option nat := match x with PTry k => Some k | _ => None end.
Lemma prim_step_small c s i ok s' : i < c_def c -> prim_step c s i ok = Next s' ->
  smaller c s s' /\ (forall k, k <> i -> p_pt s' k = p_pt s k) /\ p_st s' = p_st s /\
  (batches_ok c -> ok = true -> (forall j, p_lk s j = None) ->
   match p_pt s i with
   | PTry k => (load c s' < load c s /\ stage_of (p_pt s' i) = None) \/
               (stage_of (p_pt s' i) = Some (S k) /\ (clean s (early c i k) -> clean s' (early c i (S k)))) \/
               (stage_of (p_pt s' i) = None /\ (clean s (early c i k) -> clean s' (polled c i)))
   | PLoop => stage_of (p_pt s' i) = (if p_stop s i then None else Some 0)
   | _ => stage_of (p_pt s' i) = None
   end).
Proof.
  intros Hi E. unfold prim_step in E. destruct (p_pt s i) as [| |[|k]|[|x r]|] eqn:P; try discriminate.
  - injection E as <-. pc. split; [now apply smaller_refl|]. split; [intros k Hk; now rewrite upd_other|]. split; [easy|]. intros _ _ _. rewrite upd_same. now destruct (p_stop s i).
  - destruct (own_take c (p_wsq s i)) as [a b] eqn:T. pose proof (own_take_app _ _ _ _ T) as TA.
    assert (NO : s' = set_pt s i (PTry 1) -> smaller c s s' /\ (forall k, k <> i -> p_pt s' k = p_pt s k) /\ p_st s' = p_st s /\ stage_of (p_pt s' i) = Some 1 /\ (p_wsq s i = [] -> clean s' (early c i 1))).
    { intros ->. pc. split; [now apply smaller_refl|]. split; [intros k Hk; now rewrite upd_other|]. split; [easy|]. split; [now rewrite upd_same|]. intros W q [<-|Hq]; [exact W|]. cbn in Hq. contradiction. }
    destruct (if ok then p_lk s i else Some 0) as [m|] eqn:L.
    + destruct NO as [N1 [N2 [N3 [N4 N5]]]]; [destruct a; now injection E as <-|]. do 3 (split; [easy|]). intros _ -> Hl. rewrite Hl in L. discriminate.
    + destruct a as [|x a].
      * destruct NO as [N1 [N2 [N3 [N4 N5]]]]; [now injection E as <-|]. do 3 (split; [easy|]). intros B _ _. right. left. split; [easy|]. intros _. apply N5. eapply own_take_some; eauto.
      * injection E as <-. pc. destruct (wsq_smaller c s (set_pt (set_wsq s i b) i (PRun (x :: a))) i b 1) as [S1 S2]; pc; try easy.
        { rewrite TA. now apply incl_appr, incl_refl. } { rewrite TA. rewrite app_length. cbn. lia. }
        split; [easy|]. split; [intros k Hk; now rewrite upd_other|]. split; [easy|]. intros _ _ _. left. split; [lia|now rewrite upd_same].
  - destruct (nth_error (targets c i) k) as [j|] eqn:N.
    + pose proof (targets_lt c i j (nth_error_In _ _ N)) as Hj.
      destruct (steal_take c (p_wsq s j)) as [a b] eqn:T. pose proof (steal_take_app _ _ _ _ T) as TA.
      assert (NO : s' = set_pt s i (PTry (S (S k))) -> smaller c s s' /\ (forall k, k <> i -> p_pt s' k = p_pt s k) /\ p_st s' = p_st s /\ stage_of (p_pt s' i) = Some (S (S k)) /\ (p_wsq s j = [] -> clean s (early c i (S k)) -> clean s' (early c i (S (S k))))).
      { intros ->. pc. split; [now apply smaller_refl|]. split; [intros m Hm; now rewrite upd_other|]. split; [easy|]. split; [now rewrite upd_same|]. intros W C. rewrite (early_next _ _ _ _ N). intros q Hq. apply in_app_iff in Hq. destruct Hq as [Hq|[<-|[]]]; [|exact W]. specialize (C q Hq). now destruct q. }
      destruct (if ok then p_lk s j else Some 0) as [m|] eqn:L.
      * destruct NO as [N1 [N2 [N3 [N4 N5]]]]; [destruct a; now injection E as <-|]. do 3 (split; [easy|]). intros _ -> Hl. rewrite Hl in L. discriminate.
      * destruct a as [|x a].
        -- destruct NO as [N1 [N2 [N3 [N4 N5]]]]; [now injection E as <-|]. do 3 (split; [easy|]). intros B _ _. right. left. split; [easy|]. apply N5. eapply steal_take_some; eauto.
        -- injection E as <-. pc. destruct (wsq_smaller c s (set_pt (set_wsq s j b) i (PRun (x :: a))) j b 1) as [S1 S2]; pc; try easy.
           { rewrite TA. now apply incl_appl, incl_refl. } { rewrite TA, app_length, rev_length. cbn. lia. }
           split; [easy|]. split; [intros m Hm; now rewrite upd_other|]. split; [easy|]. intros _ _ _. left. split; [lia|now rewrite upd_same].
    + destruct (pool_take c (p_q s)) as [a b] eqn:T. pose proof (pool_take_app _ _ _ _ T) as TA.
      assert (NO : s' = set_pt s i PLoop -> smaller c s s' /\ (forall k, k <> i -> p_pt s' k = p_pt s k) /\ p_st s' = p_st s /\ stage_of (p_pt s' i) = None /\ (p_q s = [] -> clean s (early c i (S k)) -> clean s' (polled c i))).
      { intros ->. pc. split; [now apply smaller_refl|]. split; [intros m Hm; now rewrite upd_other|]. split; [easy|]. split; [now rewrite upd_same|]. intros W C q Hq. destruct (early_last _ _ _ N q Hq) as [H| ->]; [|exact W]. specialize (C q H). now destruct q. }
      destruct ok.
      * destruct a as [|x a].
        -- destruct NO as [N1 [N2 [N3 [N4 N5]]]]; [now injection E as <-|]. do 3 (split; [easy|]). intros B _ _. right. right. split; [easy|]. apply N5. eapply pool_take_some; eauto.
        -- injection E as <-. pc. destruct (q_smaller c s (set_pt (set_q s b) i (PRun (x :: a))) b 1) as [S1 S2]; pc; try easy.
           { rewrite TA. now apply incl_appr, incl_refl. } { rewrite TA, app_length. cbn. lia. }
           split; [easy|]. split; [intros m Hm; now rewrite upd_other|]. split; [easy|]. intros _ _ _. left. split; [lia|now rewrite upd_same].
      * destruct NO as [N1 [N2 [N3 [N4 N5]]]]; [destruct a; now injection E as <-|]. do 3 (split; [easy|]). intros _ Hk. discriminate.
  - injection E as <-. pc. split; [now apply smaller_refl|]. split; [intros k Hk; now rewrite upd_other|]. split; [easy|]. intros _ _ _. now rewrite upd_same.
  - injection E as <-. pc. split; [now apply smaller_refl|]. split; [intros k Hk; now rewrite upd_other|]. split; [easy|]. intros _ _ _. now rewrite upd_same.
Qed.
(** One step of a secondary thread *)
Definition searly (x : sth) : option (list queue) := match x with STry => Some [] | STryPrio => Some [QPool] | SWait => Some [QPool; QPrio] | _ => None end.
Lemma sec_step_small c s j ok s' : sec_step c s j ok = Next s' ->
  smaller c s s' /\ (forall k, k <> j -> p_st s' k = p_st s k) /\ p_pt s' = p_pt s /\ p_stop s' = p_stop s /\
  (batches_ok c -> ok = true ->
   match searly (p_st s j) with
   | Some l => (load c s' < load c s /\ searly (p_st s' j) = None) \/
               (exists l', searly (p_st s' j) = Some l' /\ (clean s l -> clean s' l')) \/
               (searly (p_st s' j) = None /\ (clean s l -> clean s' [QPool; QPrio]))
   | None => searly (p_st s' j) = (match p_st s j with SLoop => if p_sstop s j then None else Some [] | _ => None end)
   end).
Proof.
  intros E. unfold sec_step in E. destruct (p_st s j) as [| | | |[|x r]|] eqn:P; try discriminate.
  - injection E as <-. pc. split; [now apply smaller_refl|]. split; [intros k Hk; now rewrite upd_other|]. do 2 (split; [easy|]). intros _ _. cbn [searly]. rewrite upd_same. now destruct (p_sstop s j).
  - destruct (pool_take c (p_q s)) as [a b] eqn:T. pose proof (pool_take_app _ _ _ _ T) as TA.
    assert (NO : s' = set_st s j STryPrio -> smaller c s s' /\ (forall k, k <> j -> p_st s' k = p_st s k) /\ p_pt s' = p_pt s /\ p_stop s' = p_stop s /\ searly (p_st s' j) = Some [QPool] /\ (p_q s = [] -> clean s' [QPool])).
    { intros ->. pc. split; [now apply smaller_refl|]. split; [intros m Hm; now rewrite upd_other|]. do 2 (split; [easy|]). split; [now rewrite upd_same|]. intros W q [<-|[]]. exact W. }
    destruct ok; [destruct a as [|x a]|].
    + destruct NO as [N1 [N2 [N3 [N4 [N5 N6]]]]]; [now injection E as <-|]. do 4 (split; [easy|]). intros B _. cbn [searly]. right. left. exists [QPool]. split; [easy|]. intros _. apply N6. eapply pool_take_some; eauto.
    + injection E as <-. pc. destruct (q_smaller c s (set_st (set_q s b) j (SRun (x :: a))) b 1) as [S1 S2]; pc; try easy.
      { rewrite TA. now apply incl_appr, incl_refl. } { rewrite TA, app_length. cbn. lia. }
      split; [easy|]. split; [intros m Hm; now rewrite upd_other|]. do 2 (split; [easy|]). intros _ _. cbn [searly]. left. split; [lia|now rewrite upd_same].
    + destruct NO as [N1 [N2 [N3 [N4 [N5 N6]]]]]; [destruct a; now injection E as <-|]. do 4 (split; [easy|]). intros _ Hk. discriminate.
  - destruct (prio_take (p_prio s)) as [a b] eqn:T.
    assert (NO : s' = set_st s j SWait -> smaller c s s' /\ (forall k, k <> j -> p_st s' k = p_st s k) /\ p_pt s' = p_pt s /\ p_stop s' = p_stop s /\ searly (p_st s' j) = Some [QPool; QPrio] /\ (p_prio s = [] -> clean s [QPool] -> clean s' [QPool; QPrio])).
    { intros ->. pc. split; [now apply smaller_refl|]. split; [intros m Hm; now rewrite upd_other|]. do 2 (split; [easy|]). split; [now rewrite upd_same|]. intros W C q [<-|[<-|[]]]; cbn [content]; pc; [apply (C QPool); now left|now rewrite W]. }
    destruct ok; [destruct a as [|x a]|].
    + destruct NO as [N1 [N2 [N3 [N4 [N5 N6]]]]]; [now injection E as <-|]. do 4 (split; [easy|]). intros B _. cbn [searly]. right. left. exists [QPool; QPrio]. split; [easy|]. apply N6. eapply prio_take_some; eauto.
    + injection E as <-. pc. unfold prio_take in T. destruct (top (p_prio s)) as [e|] eqn:Te; [|discriminate]. injection T as <- <- <-.
      destruct (prio_smaller c s (set_st (set_prio s (drop_addr (fst e) (p_prio s))) j (SRun [snd (snd e)])) e) as [S1 S2]; pc; try easy; [now apply top_in|].
      split; [easy|]. split; [intros m Hm; now rewrite upd_other|]. do 2 (split; [easy|]). intros _ _. cbn [searly]. left. split; [lia|now rewrite upd_same].
    + destruct NO as [N1 [N2 [N3 [N4 [N5 N6]]]]]; [destruct a; now injection E as <-|]. do 4 (split; [easy|]). intros _ Hk. discriminate.
  - assert (NO : s' = set_st s j SLoop -> smaller c s s' /\ (forall k, k <> j -> p_st s' k = p_st s k) /\ p_pt s' = p_pt s /\ p_stop s' = p_stop s /\ searly (p_st s' j) = None /\ (clean s [QPool; QPrio] -> clean s' [QPool; QPrio])).
    { intros ->. pc. split; [now apply smaller_refl|]. split; [intros m Hm; now rewrite upd_other|]. do 2 (split; [easy|]). split; [now rewrite upd_same|]. intros C q [<-|[<-|[]]]; [apply (C QPool)|apply (C QPrio)]; cbn; auto. }
    destruct ok; [destruct (p_q s) as [|x b] eqn:Q|].
    + destruct NO as [N1 [N2 [N3 [N4 [N5 N6]]]]]; [now injection E as <-|]. do 4 (split; [easy|]). intros B _. cbn [searly]. right. right. easy.
    + injection E as <-. pc. destruct (q_smaller c s (set_st (set_q s b) j (SRun [x])) b 1) as [S1 S2]; pc; try easy.
      { rewrite Q. apply incl_tl, incl_refl. } { rewrite Q. cbn. lia. }
      split; [easy|]. split; [intros m Hm; now rewrite upd_other|]. do 2 (split; [easy|]). intros _ _. cbn [searly]. left. split; [lia|now rewrite upd_same].
    + destruct NO as [N1 [N2 [N3 [N4 [N5 N6]]]]]; [now injection E as <-|]. do 4 (split; [easy|]). intros _ Hk. discriminate.
  - injection E as <-. pc. split; [now apply smaller_refl|]. split; [intros k Hk; now rewrite upd_other|]. do 2 (split; [easy|]). intros _ _. cbn [searly]. now rewrite upd_same.
  - injection E as <-. pc. split; [now apply smaller_refl|]. split; [intros k Hk; now rewrite upd_other|]. do 2 (split; [easy|]). intros _ _. cbn [searly]. now rewrite upd_same.
Qed.

Lemma quiet_small c s l s' : pinv c s -> quiet l = true -> pool_step c s l = Next s' -> smaller c s s'.
Proof.
  intros I Q E. destruct l as [|t idx busy a|p t tid en lk|u t prio a|u n|u|k ok|k ok|k|k|k|]; try discriminate; cbn [pool_step] in E.
  - assert (Hk : k < c_def c) by (destruct (Nat.lt_ge_cases k (c_def c)) as [H|H]; [easy|]; unfold prim_step in E; destruct (iv_prim _ _ I k H) as [H' _]; now rewrite H' in E).
    now destruct (prim_step_small c s k ok s' Hk E).
  - now destruct (sec_step_small c s k ok s' E).
  - destruct (memb _ _); [|discriminate]. injection E as <-. now apply smaller_refl.
  - destruct (p_st s k); try discriminate. destruct (memb _ _); [|discriminate]. injection E as <-. now apply smaller_refl.
Qed.
Definition pdue (c : cfg) (i : nat) (T0 r : nat) (s : pool) : Prop :=
  clean s (polled c i) \/ r + load c s <= T0 \/ (r + load c s <= T0 + 1 /\ exists k, stage_of (p_pt s i) = Some k /\ clean s (early c i k)).
Lemma prim_due c i T0 r s l s' : batches_ok c -> i < c_def c -> pinv c s -> quiet l = true -> prim_lucky i l = true -> (forall j, p_lk s j = None) ->
  pool_step c s l = Next s' -> pdue c i T0 r s -> pdue c i T0 (r + b2n (prim_starts i s l)) s'.
Proof.
  intros B Hi I Q L K E D. pose proof (quiet_small c s l s' I Q E) as SM. destruct D as [D|D]; [left; eapply clean_smaller; eauto|].
  pose proof SM as [_ [SL _]].
  assert (OTHER : prim_starts i s l = false -> p_pt s' i = p_pt s i -> pdue c i T0 (r + b2n (prim_starts i s l)) s').
  { intros -> P. cbn [b2n]. rewrite Nat.add_0_r. right. destruct D as [D|[D [k [D1 D2]]]]; [left; lia|right]. split; [lia|]. exists k. rewrite P. split; [easy|]. eapply clean_smaller; eauto. }
  destruct l as [|t idx busy a|p t tid en lk|u t prio a|u n|u|k ok|k ok|k|k|k|]; try discriminate; cbn [pool_step] in E.
  - destruct (Nat.eq_dec k i) as [->|Hk].
    + cbn [prim_lucky] in L. rewrite Nat.eqb_refl in L. cbn in L. subst ok. clear OTHER. destruct (prim_step_small c s i true s' Hi E) as [S1 [_ [_ H]]]. specialize (H B eq_refl K).
      cbn [prim_starts]. rewrite Nat.eqb_refl. cbn [andb]. unfold prim_step in E. destruct (p_pt s i) as [| |k|x|] eqn:P; cbn [stage_of] in *; try discriminate.
      * destruct D as [D|[_ [k [D1 _]]]]; [|discriminate]. destruct (p_stop s i); cbn [negb b2n]; [right; left; lia|]. right. right. split; [lia|]. exists 0. split; [easy|]. now intros q [].
      * cbn [b2n]. rewrite Nat.add_0_r. destruct H as [[H1 H2]|[[H1 H2]|[H1 H2]]].
        -- right. left. destruct D as [D|[D _]]; lia.
        -- destruct D as [D|[D [k' [Ek D2]]]]; [right; left; lia|]. injection Ek as <-. right. right. split; [lia|]. exists (S k). auto.
        -- destruct D as [D|[D [k' [Ek D2]]]]; [right; left; lia|]. injection Ek as <-. left. auto.
      * destruct D as [D|[_ [k [D1 _]]]]; [|discriminate]. right. left. cbn [b2n]. lia.
    + apply OTHER; [cbn; now rewrite (proj2 (Nat.eqb_neq k i) Hk)|]. assert (Hkd : k < c_def c) by (destruct (Nat.lt_ge_cases k (c_def c)) as [H|H]; [easy|]; unfold prim_step in E; destruct (iv_prim _ _ I k H) as [H' _]; now rewrite H' in E).
      destruct (prim_step_small c s k ok s' Hkd E) as [_ [H _]]. now apply H, Nat.neq_sym.
  - apply OTHER; [easy|]. destruct (sec_step_small c s k ok s' E) as [_ [_ [H _]]]. now rewrite H.
  - apply OTHER; [easy|]. destruct (memb _ _); [|discriminate]. now injection E as <-.
  - apply OTHER; [easy|]. destruct (p_st s k); try discriminate. destruct (memb _ _); [|discriminate]. now injection E as <-.
Qed.
Lemma prim_drain c i : batches_ok c -> i < c_def c -> forall ls s s' T0 r, pinv c s -> forallb quiet ls = true -> forallb (prim_lucky i) ls = true -> (forall j, p_lk s j = None) ->
  pool_run c s ls = Some s' -> pdue c i T0 r s -> pdue c i T0 (r + rounds (prim_starts i) c s ls) s'.
Proof.
  intros B Hi. induction ls as [|l ls IH]; intros s s' T0 r I Q L K E D; cbn [pool_run rounds forallb] in *; [injection E as <-; now rewrite Nat.add_0_r|].
  apply Bool.andb_true_iff in Q, L. destruct Q as [Q1 Q2], L as [L1 L2]. destruct (pool_step c s l) as [| |s1] eqn:E1; try discriminate.
  rewrite Nat.add_assoc. apply IH; try easy.
  - now destruct (pool_step_inv c s l s1 I E1).
  - intros j. destruct (quiet_small c s l s1 I Q1 E1) as [H _]. now rewrite H.
  - now apply prim_due.
Qed.
Definition sdue (c : cfg) (j : nat) (T0 r : nat) (s : pool) : Prop :=
  clean s [QPool; QPrio] \/ r + load c s <= T0 \/ (r + load c s <= T0 + 1 /\ exists l, searly (p_st s j) = Some l /\ clean s l).
Lemma sec_due c j T0 r s l s' : batches_ok c -> pinv c s -> quiet l = true -> sec_lucky j l = true ->
  pool_step c s l = Next s' -> sdue c j T0 r s -> sdue c j T0 (r + b2n (sec_starts j s l)) s'.
Proof.
  intros B I Q L E D. pose proof (quiet_small c s l s' I Q E) as SM. destruct D as [D|D]; [left; eapply clean_smaller; eauto|].
  pose proof SM as [_ [SL _]].
  assert (OTHER : sec_starts j s l = false -> p_st s' j = p_st s j -> sdue c j T0 (r + b2n (sec_starts j s l)) s').
  { intros -> P. cbn [b2n]. rewrite Nat.add_0_r. right. destruct D as [D|[D [k [D1 D2]]]]; [left; lia|right]. split; [lia|]. exists k. rewrite P. split; [easy|]. eapply clean_smaller; eauto. }
  destruct l as [|t idx busy a|p t tid en lk|u t prio a|u n|u|k ok|k ok|k|k|k|]; try discriminate; cbn [pool_step] in E.
  - apply OTHER; [easy|]. assert (Hkd : k < c_def c) by (destruct (Nat.lt_ge_cases k (c_def c)) as [H|H]; [easy|]; unfold prim_step in E; destruct (iv_prim _ _ I k H) as [H' _]; now rewrite H' in E).
    destruct (prim_step_small c s k ok s' Hkd E) as [_ [_ [H _]]]. now rewrite H.
  - destruct (Nat.eq_dec k j) as [->|Hk].
    + cbn [sec_lucky] in L. rewrite Nat.eqb_refl in L. cbn in L. subst ok. clear OTHER. destruct (sec_step_small c s j true s' E) as [S1 [_ [_ [_ H]]]]. specialize (H B eq_refl).
      cbn [sec_starts]. rewrite Nat.eqb_refl. cbn [andb]. unfold sec_step in E.
      assert (TRY : forall x, searly (p_st s j) = Some x -> sdue c j T0 (r + 0) s').
      { intros x Ex. rewrite Ex in H, D. rewrite Nat.add_0_r. destruct H as [[H1 H2]|[[l' [H1 H2]]|[H1 H2]]].
        - right. left. destruct D as [D|[D _]]; lia.
        - destruct D as [D|[D [k' [Ek D2]]]]; [right; left; lia|]. injection Ek as <-. right. right. split; [lia|]. exists l'. auto.
        - destruct D as [D|[D [k' [Ek D2]]]]; [right; left; lia|]. injection Ek as <-. left. auto. }
      destruct (p_st s j) as [| | | |x|] eqn:P; try discriminate; try (eapply TRY; reflexivity).
      * cbn [searly] in *. destruct D as [D|[_ [k [D1 _]]]]; [|discriminate]. destruct (p_sstop s j); cbn [negb b2n]; [right; left; lia|]. right. right. split; [lia|]. exists []. split; [easy|]. now intros q [].
      * cbn [searly] in *. destruct D as [D|[_ [k [D1 _]]]]; [|discriminate]. right. left. cbn [b2n]. lia.
    + apply OTHER; [cbn; now rewrite (proj2 (Nat.eqb_neq k j) Hk)|]. destruct (sec_step_small c s k ok s' E) as [_ [H _]]. now apply H, Nat.neq_sym.
  - apply OTHER; [easy|]. destruct (memb _ _); [|discriminate]. now injection E as <-.
  - apply OTHER; [easy|]. destruct (p_st s k); try discriminate. destruct (memb _ _); [|discriminate]. now injection E as <-.
Qed.
Lemma sec_drain c j : batches_ok c -> forall ls s s' T0 r, pinv c s -> forallb quiet ls = true -> forallb (sec_lucky j) ls = true ->
  pool_run c s ls = Some s' -> sdue c j T0 r s -> sdue c j T0 (r + rounds (sec_starts j) c s ls) s'.
Proof.
  intros B. induction ls as [|l ls IH]; intros s s' T0 r I Q L E D; cbn [pool_run rounds forallb] in *; [injection E as <-; now rewrite Nat.add_0_r|].
  apply Bool.andb_true_iff in Q, L. destruct Q as [Q1 Q2], L as [L1 L2]. destruct (pool_step c s l) as [| |s1] eqn:E1; try discriminate.
  rewrite Nat.add_assoc. apply IH; try easy.
  - now destruct (pool_step_inv c s l s1 I E1).
  - now apply sec_due.
Qed.
Lemma run_small c : forall ls s s', pinv c s -> forallb quiet ls = true -> pool_run c s ls = Some s' -> smaller c s s'.
Proof.
  induction ls as [|l ls IH]; intros s s' I Q E; cbn [pool_run forallb] in *; [injection E as <-; now apply smaller_refl|].
  apply Bool.andb_true_iff in Q. destruct (pool_step c s l) as [| |s1] eqn:E1; try discriminate. apply (smaller_trans c s s1).
  - now apply (quiet_small c s l). - apply IH; try easy. now destruct (pool_step_inv c s l s1 I E1).
Qed.
Lemma run_app c : forall l1 l2 s s', pool_run c s (l1 ++ l2) = Some s' <-> exists s1, pool_run c s l1 = Some s1 /\ pool_run c s1 l2 = Some s'.
Proof.
  induction l1 as [|l l1 IH]; intros l2 s s'; cbn [app pool_run].
  - split; [intros E; now exists s|]. intros [s1 [E1 E2]]. now injection E1 as <-.
  - destruct (pool_step c s l) as [| |z]; [split; [easy|intros [? [? ?]]; easy]|split; [easy|intros [? [? ?]]; easy]|]. apply IH.
Qed.

(** Threads end only when told to; a secondary thread that is not in the list has ended. *)
Record live (c : cfg) (s : pool) : Prop :=
  { lv_p : p_init s = true -> forall i, i < c_def c -> p_pt s i <> PNone /\ (p_pt s i = PExit -> p_stop s i = true);
    lv_s : forall j, In j (p_sec s) -> j < p_nsec s /\ (p_st s j = SExit -> p_sstop s j = true);
    lv_h : forall j, j < p_nsec s -> p_st s j <> SExit -> In j (p_sec s) }.
Lemma live_spawn c k : forall s, live c s -> live c (spawn k s).
Proof.
  induction k as [|k IH]; intros s [A B C]; [easy|]. cbn [spawn]. apply IH. constructor; pc.
  - easy.
  - intros j Hj. unfold upd. destruct (Nat.eqb_spec j (p_nsec s)) as [->|H]; [split; [lia|discriminate]|]. apply in_app_iff in Hj. destruct Hj as [Hj|[<-|[]]]; [|easy]. destruct (B j Hj). split; [lia|easy].
  - intros j Hj. unfold upd. destruct (Nat.eqb_spec j (p_nsec s)) as [->|H]; intros Hs; apply in_app_iff; [right; now left|]. left. apply C; [lia|easy].
Qed.
Lemma live_step c s l s' : live c s -> pool_step c s l = Next s' -> live c s'.
Proof.
  intros I E.
  assert (W : forall s'', p_init s'' = p_init s -> p_pt s'' = p_pt s -> p_stop s'' = p_stop s -> p_st s'' = p_st s -> p_sstop s'' = p_sstop s -> p_nsec s'' = p_nsec s -> p_sec s'' = p_sec s -> live c s'').
  { intros s'' A1 A2 A3 A4 A5 A6 A7. destruct I as [A B C]. constructor; rewrite ?A1, ?A2, ?A3, ?A4, ?A5, ?A6, ?A7; easy. }
  destruct l as [|t idx busy a|p t tid en lk|u t prio a|u n|u|k ok|k ok|k|k|k|]; cbn [pool_step] in E.
  - injection E as <-. unfold pool_init. destruct (p_init s); [easy|]. apply live_spawn. destruct I as [A B C]. constructor; pc; try easy. intros _ i Hi. rewrite (proj2 (Nat.ltb_lt i (c_def c)) Hi). easy.
  - unfold push_prio in E. nx E; now apply W.
  - destruct (_ && _)%bool; [|injection E as <-; now apply W]. nx E; try destruct en; now apply W.
  - nx E; now apply W.
  - nx E; now apply W.
  - unfold push_prio in E. destruct (find_call u (p_call s)) as [q|]; [|discriminate]. apply (live_spawn c (Z.to_nat (k_num q))) in I. destruct I as [A B C].
    destruct (k_task q) as [[a [prio t]]|]; [destruct (memb _ _); [discriminate|]|]; injection E as <-; constructor; pc; easy.
  - unfold prim_step in E. destruct I as [A B C]. destruct (p_pt s k) eqn:P; try discriminate.
    + injection E as <-. constructor; pc; try easy. intros Hi i Hd. specialize (A Hi i Hd). unfold upd. destruct (Nat.eqb_spec i k) as [->|]; [|easy]. now destruct (p_stop s k).
    + nx E; constructor; pc; try easy; intros Hi i Hd; specialize (A Hi i Hd); unfold upd; (destruct (Nat.eqb_spec i k) as [->|]; [|easy]); easy.
    + nx E; constructor; pc; try easy; intros Hi i Hd; specialize (A Hi i Hd); unfold upd; (destruct (Nat.eqb_spec i k) as [->|]; [|easy]); easy.
  - unfold sec_step in E. destruct I as [A B C].
    assert (K : forall x, (x = SExit -> p_sstop s k = true) -> p_st s k <> SExit -> live c (set_st s k x)).
    { intros x Hx Hk. constructor; pc; try easy.
      - intros j Hj. destruct (B j Hj) as [B1 B2]. split; [easy|]. unfold upd. destruct (Nat.eqb_spec j k) as [->|]; easy.
      - intros j Hj. unfold upd. destruct (Nat.eqb_spec j k) as [->|]; [auto|now apply C]. }
    assert (K2 : forall s1 x, (x = SExit -> p_sstop s k = true) -> p_st s k <> SExit -> p_init s1 = p_init s -> p_pt s1 = p_pt s -> p_stop s1 = p_stop s -> p_st s1 = upd (p_st s) k x -> p_sstop s1 = p_sstop s -> p_nsec s1 = p_nsec s -> p_sec s1 = p_sec s -> live c s1).
    { intros s1 x Hx Hk A1 A2 A3 A4 A5 A6 A7. destruct (K x Hx Hk) as [A' B' C']. pc. constructor; rewrite ?A1, ?A2, ?A3, ?A4, ?A5, ?A6, ?A7; easy. }
    destruct (p_st s k) eqn:P; try discriminate.
    + injection E as <-. match goal with |- context [set_st _ k ?x] => apply (K2 _ x) end; try easy. now destruct (p_sstop s k).
    + dmx E; injection E as <-; match goal with |- context [set_st _ k ?x] => apply (K2 _ x) end; easy.
    + dmx E; injection E as <-; match goal with |- context [set_st _ k ?x] => apply (K2 _ x) end; easy.
    + dmx E; injection E as <-; match goal with |- context [set_st _ k ?x] => apply (K2 _ x) end; easy.
    + dmx E; injection E as <-; match goal with |- context [set_st _ k ?x] => apply (K2 _ x) end; easy.
  - destruct (_ && _)%bool; [|discriminate]. injection E as <-. destruct I as [A B C]. constructor; pc; try easy. intros Hi i Hd. specialize (A Hi i Hd). unfold upd. destruct (Nat.eqb i k); [|easy]. easy.
  - destruct (memb _ _); [|discriminate]. injection E as <-. destruct I as [A B C]. constructor; pc; try easy. intros j Hj. specialize (B j Hj). unfold upd. destruct (Nat.eqb j k); easy.
  - destruct (p_st s k) eqn:P; try discriminate. destruct (memb _ _); [|discriminate]. injection E as <-. destruct I as [A B C]. constructor; pc; try easy.
    + intros j Hj. apply filter_In in Hj. now apply B.
    + intros j Hj Hs. apply filter_In. split; [now apply C|]. destruct (Nat.eqb_spec j k) as [->|]; [congruence|easy].
  - destruct (p_init s && _ && _)%bool eqn:G; [|discriminate]. destruct (existsb _ _); [discriminate|]. injection E as <-. destruct I as [A B C]. constructor; pc; try easy.
    intros j Hj Hs. exfalso. apply Bool.andb_true_iff in G. destruct G as [_ G]. rewrite forallb_forall in G. specialize (G j (C j Hj Hs)). now destruct (p_st s j).
Qed.
Lemma live_run c : forall ls s s', live c s -> pool_run c s ls = Some s' -> live c s'.
Proof.
  induction ls as [|l ls IH]; intros s s' I E; cbn [pool_run] in E; [now injection E as <-|]. destruct (pool_step c s l) as [| |s1] eqn:E1; try discriminate.
  apply (IH s1); [|easy]. eapply live_step; eauto.
Qed.
Lemma live_new c : live c pool_new.
Proof. constructor; cbn; easy || (intros; lia). Qed.
