(** Property theorems on the thread pool: which tasks get executed, priorities, thread numbers, init and destroy. *)
From Verif Require Import PoolModel PoolSpec PoolProofs PoolProps PoolLive.
From Coq Require Import Permutation.
Local Open Scope list_scope.

(** C41 (the part that holds): as long as the running index has not wrapped around (or at most 101 threads are configured), a task given with any
    strategy index but that of long tasks goes to the back of one queue that some primary thread takes tasks from, and no other queue changes.
    Missing: long tasks and wrapped indices, see the theorems below. *)
Theorem C41_polled_partial : forall c s t idx busy a s', 0 < c_def c -> idx <> (-101)%Z -> (c_max c <= 101 \/ (0 <= p_cur s)%Z) \/ idx <> (-1)%Z ->
  pool_step c s (LSubmit t idx busy a) = Next s' -> exists q, content s' q = content s q ++ [t] /\ (forall q', q' <> q -> content s' q' = content s q') /\
  exists i, i < c_def c /\ prim_polls c i q.
Proof.
  intros c s t idx busy a s' Hd Hx Hc E. cbn [pool_step] in E. destruct (dispatch c (p_cur s) idx busy) as [[r cur']|] eqn:D; [|discriminate].
  assert (Hr : r <> (-101)%Z).
  { unfold dispatch in D. destruct (Z.eqb_spec idx (-1)) as [->|]; [|now injection D as <- _]. destruct (Nat.eqb_spec (c_max c) 0); [discriminate|]. injection D as <- _.
    destruct (_ && busy)%bool; [easy|]. destruct Hc as [Hc|Hc]; [|easy]. intros Hm. pose proof (Z.rem_bound_abs (p_cur s) (Z.of_nat (c_max c)) ltac:(lia)). destruct Hc as [Hc|Hc]; [lia|].
    pose proof (Z.rem_nonneg (p_cur s) (Z.of_nat (c_max c)) ltac:(lia) Hc). lia. }
  unfold dest in E. destruct (Z.leb_spec 0 r), (Z.ltb_spec r (Z.of_nat (c_def c))); cbn [andb] in E.
  1: { destruct (p_init s); [|discriminate]. destruct (p_lk s (Z.to_nat r)); [discriminate|]. injection E as <-. exists (QOwn (Z.to_nat r)). cbn [content]. pc. rewrite upd_same. split; [easy|]. split.
    - intros [j| |] Hq; cbn [content]; pc; try easy. rewrite upd_other; [easy|congruence].
    - exists (Z.to_nat r). split; [lia|]. now left. }
  all: destruct (Z.eqb_spec r (-101)) as [|_]; [easy|]; injection E as <-; exists QPool; cbn [content]; pc; (split; [easy|]); (split; [intros [j| |] Hq; cbn [content]; pc; easy|]); exists 0; easy.
Qed.
(** C41: the same for the tasks of a dynamic pipeline, which name the thread. *)
Theorem C41_polled_tid_partial : forall c s p t tid en lk s', 0 < c_def c -> pool_step c s (LTid p t tid en lk) = Next s' ->
  exists q, content s' q = content s q ++ [t] /\ (forall q', q' <> q -> content s' q' = content s q') /\ exists i, i < c_def c /\ prim_polls c i q.
Proof.
  intros c s p t tid en lk s' Hd E. cbn [pool_step] in E. destruct (Z.leb_spec 0 tid), (Z.ltb_spec tid (Z.of_nat (c_def c))); cbn [andb] in E.
  1: { exists (QOwn (Z.to_nat tid)). assert (S : p_wsq s' = upd (p_wsq s) (Z.to_nat tid) (p_wsq s (Z.to_nat tid) ++ [t]) /\ p_q s' = p_q s /\ p_prio s' = p_prio s).
    { destruct (negb (p_init s)); [discriminate|]. destruct (en && lk)%bool; dmx E; injection E as <-; try destruct en; easy. }
    destruct S as [S1 [S2 S3]]. cbn [content]. rewrite S1, upd_same. split; [easy|]. split; [|exists (Z.to_nat tid); split; [lia|now left]].
    intros [j| |] Hq; cbn [content]; rewrite ?S1, ?S2, ?S3; try easy. rewrite upd_other; [easy|congruence]. }
  all: injection E as <-; exists QPool; cbn [content]; pc; (split; [easy|]); (split; [intros [j| |] Hq; cbn [content]; pc; easy|]); exists 0; easy.
Qed.
(** C41: a thread of the pool never gets stuck: until it has been told to end it always has a next action. *)
Theorem C41_alive_partial : forall c h s, pool_run c pool_new h = Some s ->
  (forall i ok, prim_alive c s i -> exists s', pool_step c s (LPrim i ok) = Next s') /\
  (forall j ok, sec_alive s j -> exists s', pool_step c s (LSec j ok) = Next s').
Proof.
  intros c h s E. pose proof (live_run c h pool_new s (live_new c) E) as [A B C]. split.
  - intros i ok [Hi [Ho Hs]]. destruct (A Ho i Hi) as [A1 A2]. cbn [pool_step]. unfold prim_step. destruct (p_pt s i) as [| |[|k]|[|x r]|]; try easy; try (eexists; reflexivity); try (specialize (A2 eq_refl); congruence).
    + destruct (own_take c (p_wsq s i)) as [[|x a] b], (if ok then p_lk s i else Some 0); eexists; reflexivity.
    + destruct (nth_error (targets c i) k) as [j|].
      * destruct (steal_take c (p_wsq s j)) as [[|x a] b], (if ok then p_lk s j else Some 0); eexists; reflexivity.
      * destruct (pool_take c (p_q s)) as [[|x a] b], ok; eexists; reflexivity.
  - intros j ok [Hj Hs]. destruct (B j Hj) as [B1 B2]. cbn [pool_step]. unfold sec_step. destruct (p_st s j) as [| | | |[|x r]|]; try easy; try (eexists; reflexivity); try (specialize (B2 eq_refl); congruence).
    + destruct (pool_take c (p_q s)) as [[|x a] b], ok; eexists; reflexivity.
    + destruct (prio_take (p_prio s)) as [[|x a] b], ok; eexists; reflexivity.
    + destruct (p_q s), ok; eexists; reflexivity.
Qed.
(** C41: once no further tasks come in, a primary thread whose attempts to get a mutex succeed empties every queue it takes tasks from, within as many
    rounds of its loop as there are tasks in the queues, plus two; whatever the other threads do. *)
Theorem C41_drain_partial : forall c h s ls s' i, pool_run c pool_new h = Some s -> i < c_def c -> batches_ok c -> (forall j, p_lk s j = None) ->
  pool_run c s ls = Some s' -> forallb quiet ls = true -> forallb (prim_lucky i) ls = true -> length (in_queues c s) + 1 < rounds (prim_starts i) c s ls ->
  forall q, prim_polls c i q -> content s' q = [].
Proof.
  intros c h s ls s' i E Hi B K R Q L H q Hq. destruct (pool_run_inv c h pool_new s (pinv_new c) E) as [I _].
  destruct (prim_drain c i B Hi ls s s' (load c s) 0 I Q L K R) as [D|[D|[D _]]]; [right; left; lia| |unfold load in *; lia|unfold load in *; lia]. apply D. now apply polled_iff.
Qed.
(** C41: the same for a secondary thread: it empties the queue of the pool and the queue of long tasks. *)
Theorem C41_drain_secondary_partial : forall c h s ls s' j, pool_run c pool_new h = Some s -> batches_ok c ->
  pool_run c s ls = Some s' -> forallb quiet ls = true -> forallb (sec_lucky j) ls = true -> length (in_queues c s) + 1 < rounds (sec_starts j) c s ls ->
  forall q, sec_polls q -> content s' q = [].
Proof.
  intros c h s ls s' j E B R Q L H q Hq. destruct (pool_run_inv c h pool_new s (pinv_new c) E) as [I _].
  destruct (sec_drain c j B ls s s' (load c s) 0 I Q L R) as [D|[D|[D _]]]; [right; left; lia| |unfold load in *; lia|unfold load in *; lia]. apply D. destruct q; cbn in *; tauto.
Qed.
(** C41: so a task waiting in such a queue has then been executed or is in the hands of a thread. *)
Lemma flat_in (s : pool) n t : In t (flat_map (p_wsq s) (seq 0 n)) <-> exists i, i < n /\ In t (p_wsq s i).
Proof. rewrite in_flat_map. split; intros [x [A B]]; exists x; (split; [|easy]); [apply in_seq in A; lia|apply in_seq; lia]. Qed.
Lemma in_queues_in c s t : In t (in_queues c s) <-> exists q, (match q with QOwn i => i < c_def c | _ => True end) /\ In t (content s q).
Proof.
  unfold in_queues. rewrite !in_app_iff, flat_in. split.
  - intros [[i [H1 H2]]|[H|H]]; [exists (QOwn i)|exists QPool|exists QPrio]; easy.
  - intros [[i| |] [H1 H2]]; cbn in H2; [left; eauto|tauto|tauto].
Qed.
Theorem C41_executed_partial : forall c h s ls s' i q t, pool_run c pool_new h = Some s -> i < c_def c -> batches_ok c -> (forall j, p_lk s j = None) ->
  pool_run c s ls = Some s' -> forallb quiet ls = true -> forallb (prim_lucky i) ls = true -> length (in_queues c s) + 1 < rounds (prim_starts i) c s ls ->
  prim_polls c i q -> In t (content s q) -> count_occ Nat.eq_dec (given h) t = 1 -> In t (p_log s') \/ In t (in_threads c s').
Proof.
  intros c h s ls s' i q t E Hi B K R Q L H Hq Ht H1. pose proof (C41_drain_partial c h s ls s' i E Hi B K R Q L H q Hq) as Em.
  destruct (pool_run_inv c h pool_new s (pinv_new c) E) as [I _]. pose proof (run_small c ls s s' I Q R) as [_ [_ SM]].
  assert (Gq : given ls = []). { clear - Q. induction ls as [|l r IH]; [easy|]. cbn in *. apply Bool.andb_true_iff in Q. destruct Q as [Q1 Q2]. destruct l; try discriminate; now apply IH. }
  assert (E2 : pool_run c pool_new (h ++ ls) = Some s') by (apply run_app; eauto).
  pose proof (C40_accounted c h s E) as P1. pose proof (C40_accounted c _ s' E2) as P2. unfold given in P2, Gq. rewrite flat_map_app, Gq, app_nil_r in P2.
  rewrite (Permutation_count_occ Nat.eq_dec) in P1, P2. specialize (P1 t). specialize (P2 t). fold (given h) in P2. rewrite H1 in P1, P2. rewrite !cnt_app in P1, P2.
  assert (Hin : In t (in_queues c s)).
  { apply in_queues_in. exists q. split; [|easy]. destruct q; [|easy|easy]. destruct Hq as [->|Hq]; [easy|]. now apply targets_lt in Hq. }
  apply (count_occ_In Nat.eq_dec) in Hin.
  (* nothing else holds t at s, so nothing else can have got it but a thread *)
  assert (Pc : forall c0 l0 z z', forallb quiet l0 = true -> pool_run c0 z l0 = Some z' -> p_call z' = p_call z /\ p_drop z' = p_drop z).
  { clear. intros c. induction l0 as [|l r IH]; intros z z' Q E; cbn in E; [now injection E as <-|]. cbn in Q. apply Bool.andb_true_iff in Q. destruct Q as [Q1 Q2]. destruct (pool_step c z l) as [| |z1] eqn:E1; try discriminate.
    destruct (IH z1 z' Q2 E) as [-> ->]. destruct l; try discriminate; cbn [pool_step] in E1.
    - unfold prim_step in E1. nx E1; easy. - unfold sec_step in E1. nx E1; easy. - nx E1; easy. - nx E1; easy. }
  destruct (Pc c ls s s' Q R) as [C1 C2]. unfold in_calls in *. rewrite C1, C2 in P2.
  assert (Z2 : count_occ Nat.eq_dec (in_queues c s') t = 0).
  { destruct (count_occ Nat.eq_dec (in_queues c s') t) as [|n] eqn:Z; [easy|]. exfalso. assert (Hi2 : In t (in_queues c s')) by (apply (count_occ_In Nat.eq_dec); lia).
    apply in_queues_in in Hi2. destruct Hi2 as [q' [Hb Hq']]. assert (Hqq : q' <> q) by (intros ->; now rewrite Em in Hq'). specialize (SM q' _ Hq').
    (* t twice in the queues of s *)
    assert (Two : 2 <= count_occ Nat.eq_dec (in_queues c s) t).
    { unfold in_queues. rewrite !cnt_app, cnt_flat.
      assert (F : forall x, x < c_def c -> In t (p_wsq s x) -> 1 <= sumf (fun i => cnt t (p_wsq s i)) (seq 0 (c_def c))).
      { intros x Hx Hp. apply (count_occ_In Nat.eq_dec) in Hp. pose proof (sumf_change (fun i => cnt t (p_wsq s i)) (fun i => if Nat.eqb i x then 0 else cnt t (p_wsq s i)) (seq 0 (c_def c)) x (seq_NoDup _ _) ltac:(apply in_seq; lia)) as SC.
        cbn beta in SC. rewrite Nat.eqb_refl in SC. specialize (SC ltac:(intros y _ Hy; now rewrite (proj2 (Nat.eqb_neq y x) Hy))). lia. }
      assert (F2 : forall x y, x <> y -> x < c_def c -> y < c_def c -> In t (p_wsq s x) -> In t (p_wsq s y) -> 2 <= sumf (fun i => cnt t (p_wsq s i)) (seq 0 (c_def c))).
      { intros x y Hxy Hx Hy Hp Hp2. apply (count_occ_In Nat.eq_dec) in Hp, Hp2.
        pose proof (sumf_change (fun i => cnt t (p_wsq s i)) (fun i => if Nat.eqb i x then 0 else cnt t (p_wsq s i)) (seq 0 (c_def c)) x (seq_NoDup _ _) ltac:(apply in_seq; lia)) as SC.
        cbn beta in SC. rewrite Nat.eqb_refl in SC. specialize (SC ltac:(intros z _ Hz; now rewrite (proj2 (Nat.eqb_neq z x) Hz))).
        pose proof (sumf_change (fun i => if Nat.eqb i x then 0 else cnt t (p_wsq s i)) (fun i => if Nat.eqb i y then 0 else if Nat.eqb i x then 0 else cnt t (p_wsq s i)) (seq 0 (c_def c)) y (seq_NoDup _ _) ltac:(apply in_seq; lia)) as SD.
        cbn beta in SD. rewrite Nat.eqb_refl in SD. specialize (SD ltac:(intros z _ Hz; now rewrite (proj2 (Nat.eqb_neq z y) Hz))). rewrite (proj2 (Nat.eqb_neq y x) (Nat.neq_sym _ _ Hxy)) in SD. lia. }
      assert (Bq : match q with QOwn i => i < c_def c | _ => True end) by (destruct q; [|easy|easy]; destruct Hq as [->|Hq]; [easy|now apply targets_lt in Hq]).
      destruct q as [x| |], q' as [y| |]; cbn [content] in *; try congruence; try contradiction.
      - apply (F2 x y) in SM; try easy; [lia|congruence].
      - apply (F x) in Ht; [|easy]. apply (count_occ_In Nat.eq_dec) in SM. lia.
      - apply (F x) in Ht; [|easy]. apply (count_occ_In Nat.eq_dec) in SM. lia.
      - apply (F y) in SM; [|easy]. apply (count_occ_In Nat.eq_dec) in Ht. lia.
      - apply (count_occ_In Nat.eq_dec) in SM, Ht. lia. }
    lia. }
  rewrite Z2 in P2. destruct (Nat.eq_dec (cnt t (p_log s')) 0) as [Hz|Hz]; [right|left]; apply (count_occ_In Nat.eq_dec); lia.
Qed.
(** A case: two tasks in different queues, thread 1 empties both in four rounds while thread 0 does nothing. *)
Definition c41_cfg : cfg := mkCfg 2 0 2 1 2 2 2 false false.
Definition c41_h : list plabel := [LInit; LSubmit 10 0 false 0; LSubmit 11 (-2) false 0].
Definition c41_ls : list plabel := repeat (LPrim 1 true) 22.
Example C41_case : exists s s', pool_run c41_cfg pool_new c41_h = Some s /\ pool_run c41_cfg s c41_ls = Some s' /\ batches_ok c41_cfg /\ (forall j, p_lk s j = None) /\
  forallb quiet c41_ls = true /\ forallb (prim_lucky 1) c41_ls = true /\ length (in_queues c41_cfg s) + 1 < rounds (prim_starts 1) c41_cfg s c41_ls /\
  prim_polls c41_cfg 1 (QOwn 0) /\ content s (QOwn 0) = [10] /\ content s QPool = [11] /\ p_log s' = [11; 10] /\ prim_alive c41_cfg s 1.
Proof. eexists. eexists. split; [vm_compute; reflexivity|]. split; [vm_compute; reflexivity|]. split; [easy|]. split; [easy|]. do 3 (split; [vm_compute; easy || lia|]). split; [right; vm_compute; tauto|]. do 3 (split; [reflexivity|]). vm_compute. intuition lia. Qed.
Definition c41s_cfg : cfg := mkCfg 1 1 2 1 2 2 2 true false.
Definition c41s_h : list plabel := [LInit; LSubmit 10 (-101) false 5; LSubmit 11 (-2) false 0].
Example C41_case_secondary : exists s s', pool_run c41s_cfg pool_new c41s_h = Some s /\ pool_run c41s_cfg s (repeat (LSec 0 true) 22) = Some s' /\
  batches_ok c41s_cfg /\ length (in_queues c41s_cfg s) + 1 < rounds (sec_starts 0) c41s_cfg s (repeat (LSec 0 true) 22) /\ content s QPrio = [10] /\ p_log s' = [10; 11] /\ sec_alive s 0.
Proof. eexists. eexists. split; [vm_compute; reflexivity|]. split; [vm_compute; reflexivity|]. split; [intros _; cbn; lia|]. split; [vm_compute; lia|]. do 2 (split; [reflexivity|]). split; [now left|reflexivity]. Qed.

(** C41, long tasks: with a configuration that leaves no room for secondary threads - the default one is such - a task given with the strategy for long
    tasks or with commitWithPriority is never executed, in any history whatever. *)
Record stuck (c : cfg) (t : nat) (s : pool) : Prop :=
  { sk_n : p_nsec s = 0; sk_s : p_sec s = []; sk_k : forall k, In k (p_call s) -> (k_num k <= 0)%Z;
    sk_w : forall i, ~ In t (p_wsq s i); sk_q : ~ In t (p_q s); sk_h : forall i, ~ In t (p_held (p_pt s i)); sk_l : ~ In t (p_log s) }.
Lemma spawn_none z s : (z <= 0)%Z -> spawn (Z.to_nat z) s = s.
Proof. intros H. replace (Z.to_nat z) with 0 by lia. easy. Qed.
Lemma not_in_app {t : nat} {a b} : ~ In t (a ++ b) -> ~ In t a /\ ~ In t b.
Proof. rewrite in_app_iff. tauto. Qed.
Lemma stuck_step c t s l s' : c_max c <= c_def c -> pinv c s -> stuck c t s -> (In t (given1 l) -> slow l = true) -> pool_step c s l = Next s' -> stuck c t s'.
Proof.
  intros Hm PI I Hg E. assert (RS : forall n, (real_size c s n <= 0)%Z) by (intros n; unfold real_size; lia). pose proof I as [A1 A2 A3 A4 A5 A6 A7].
  destruct l as [|t' idx busy a|p t' tid en lk|u t' prio a|u n|u|k ok|k ok|k|k|k|]; cbn [pool_step] in E.
  - injection E as <-. unfold pool_init. destruct (p_init s); [easy|]. rewrite spawn_none by apply RS. constructor; pc; try easy. intros i. destruct (Nat.ltb i (c_def c)); easy.
  - destruct (dispatch c (p_cur s) idx busy) as [[r cur']|] eqn:D; [|discriminate].
    destruct (Nat.eq_dec t' t) as [->|Hne].
    + cbn [given1 slow] in Hg. specialize (Hg (or_introl eq_refl)). apply Z.eqb_eq in Hg. subst idx. cbn in D. injection D as <- <-. unfold dest in E. cbn [Z.leb Z.compare andb Z.eqb Pos.eqb] in E. unfold push_prio in E. nx E. constructor; easy.
    + destruct (dest c r).
      * destruct (p_init s); [|discriminate]. destruct (p_lk s i); [discriminate|]. injection E as <-. constructor; pc; try easy. intros j. unfold upd. destruct (Nat.eqb j i); [|easy]. rewrite in_app_iff. intros [H|[H|[]]]; [now apply (A4 i)|easy].
      * injection E as <-. constructor; pc; try easy. rewrite in_app_iff. intros [H|[H|[]]]; easy.
      * unfold push_prio in E. nx E. constructor; easy.
  - assert (Hne : t' <> t) by (intros ->; cbn [given1 slow] in Hg; specialize (Hg (or_introl eq_refl)); discriminate).
    assert (W : stuck c t (set_wsq s (Z.to_nat tid) (p_wsq s (Z.to_nat tid) ++ [t']))) by (constructor; pc; try easy; intros j; unfold upd; destruct (Nat.eqb j _); [|easy]; rewrite in_app_iff; intros [H|[H|[]]]; [now apply (A4 (Z.to_nat tid))|easy]).
    destruct W as [W1 W2 W3 W4 W5 W6 W7]. pc. destruct (_ && _)%bool.
    + destruct (negb (p_init s)); [discriminate|]. destruct (en && lk)%bool; dmx E; injection E as <-; try destruct en; constructor; pc; easy.
    + injection E as <-. constructor; pc; try easy. rewrite in_app_iff. intros [H|[H|[]]]; easy.
  - destruct (find_call u (p_call s)); [discriminate|]. injection E as <-. constructor; pc; try easy. intros k [<-|Hk]; [|auto]. cbn. rewrite A2. apply RS.
  - destruct (find_call u (p_call s)); [discriminate|]. injection E as <-. constructor; pc; try easy. intros k [<-|Hk]; [|auto]. cbn. apply RS.
  - destruct (find_call u (p_call s)) as [k|] eqn:F; [|discriminate]. apply find_call_some in F. destruct F as [F _]. rewrite spawn_none in E by auto. unfold push_prio in E. nx E; constructor; pc; try easy; intros k' Hk; apply filter_In in Hk; now apply A3.
  - unfold prim_step in E. assert (K : forall s1 x, p_nsec s1 = p_nsec s -> p_sec s1 = p_sec s -> p_call s1 = p_call s -> (forall i, incl (p_wsq s1 i) (p_wsq s i)) -> incl (p_q s1) (p_q s) -> p_pt s1 = upd (p_pt s) k x -> ~ In t (p_held x) -> ~ In t (p_log s1) -> stuck c t s1).
    { intros s1 x B1 B2 B3 B4 B5 B6 B7 B8. constructor; rewrite ?B1, ?B2, ?B3; try easy; [intros i H; now apply (A4 i), B4|intros H; now apply A5, B5|]. intros i. rewrite B6. unfold upd. destruct (Nat.eqb i k); [easy|apply A6]. }
    assert (UP : forall j b, incl b (p_wsq s j) -> forall i, incl (upd (p_wsq s) j b i) (p_wsq s i)).
    { intros j b Hb i. unfold upd. destruct (Nat.eqb_spec i j) as [->|]; [easy|apply incl_refl]. }
    destruct (p_pt s k) as [| |[|m]|[|x r]|] eqn:P; try discriminate.
    + injection E as <-. match goal with |- context [set_pt _ k ?x] => apply (K _ x) end; pc; try easy; try (intros; apply incl_refl). destruct (p_stop s k); easy.
    + destruct (own_take c (p_wsq s k)) as [a b] eqn:T. apply own_take_app in T. specialize (A4 k). rewrite T in A4. destruct (not_in_app A4) as [T1 T2].
      destruct (if ok then _ else _), a as [|x a]; injection E as <-; match goal with |- context [set_pt _ k ?x] => apply (K _ x) end; pc; try easy; try (intros; apply incl_refl).
      apply UP. rewrite T. now apply incl_appr, incl_refl.
    + destruct (nth_error (targets c k) m) as [j|].
      * destruct (steal_take c (p_wsq s j)) as [a b] eqn:T. apply steal_take_app in T. specialize (A4 j). rewrite T in A4. destruct (not_in_app A4) as [T1 T2]. rewrite <- in_rev in T2.
        destruct (if ok then _ else _), a as [|x a]; injection E as <-; match goal with |- context [set_pt _ k ?x] => apply (K _ x) end; pc; try easy; try (intros; apply incl_refl).
        apply UP. rewrite T. now apply incl_appl, incl_refl.
      * destruct (pool_take c (p_q s)) as [a b] eqn:T. apply pool_take_app in T. rewrite T in A5. destruct (not_in_app A5) as [T1 T2].
        destruct ok, a as [|x a]; injection E as <-; match goal with |- context [set_pt _ k ?x] => apply (K _ x) end; pc; try easy; try (intros; apply incl_refl).
        rewrite T. now apply incl_appr, incl_refl.
    + injection E as <-. match goal with |- context [set_pt _ k ?x] => apply (K _ x) end; pc; try easy; try (intros; apply incl_refl).
    + injection E as <-. specialize (A6 k). rewrite P in A6. cbn in A6. match goal with |- context [set_pt _ k ?x] => apply (K _ x) end; pc; try easy; try (intros; apply incl_refl); cbn; tauto.
  - unfold sec_step in E. now rewrite (iv_sec _ _ PI k ltac:(lia)) in E.
  - destruct (_ && _)%bool; [|discriminate]. injection E as <-. constructor; easy.
  - rewrite A2 in E. discriminate.
  - destruct (p_st s k); try discriminate. rewrite A2 in E. discriminate.
  - destruct (p_init s && _ && _)%bool; [|discriminate]. destruct (existsb _ _); [discriminate|]. injection E as <-. constructor; pc; easy.
Qed.
Theorem C41_longtime_refuted : forall c, c_max c <= c_def c -> forall ls s t, pool_run c pool_new ls = Some s -> (forall l, In l ls -> In t (given1 l) -> slow l = true) -> ~ In t (p_log s).
Proof.
  intros c Hm. assert (G : forall ls s s' t, pinv c s -> stuck c t s -> pool_run c s ls = Some s' -> (forall l, In l ls -> In t (given1 l) -> slow l = true) -> stuck c t s').
  { induction ls as [|l ls IH]; intros s s' t PI I E H; cbn [pool_run] in E; [now injection E as <-|]. destruct (pool_step c s l) as [| |s1] eqn:E1; try discriminate.
    apply (IH s1); try easy; [now destruct (pool_step_inv c s l s1 PI E1)| |intros x Hx; apply H; now right]. apply (stuck_step c t s l); try easy. apply H. now left. }
  intros ls s t E H. apply (G ls pool_new s t (pinv_new c)); easy.
Qed.
Example C41_longtime_default : cfg_check cfg_default = true /\ c_max cfg_default <= c_def cfg_default.
Proof. split; [easy|]. cbn. lia. Qed.
Example C41_longtime_case : exists s, pool_run cfg_default pool_new ([LInit; LSubmit 10 (-101) false 1; LPrio 1 11 5 2; LCreate 1] ++ concat (repeat (map (fun i => LPrim i true) (seq 0 8)) 30)) = Some s /\
  p_log s = [] /\ p_sec s = [] /\ content s QPrio = [10; 11].
Proof. eexists. split; [vm_compute; reflexivity|]. easy. Qed.

(** C41: a thread number of zero is accepted by the check of the configuration, and then giving a task with the default strategy is undefined. *)
Theorem C41_zero_refuted : exists c, cfg_check c = true /\ forall t busy a, exists s, pool_run c pool_new [LInit] = Some s /\ pool_step c s (LSubmit t (-1) busy a) = Undef.
Proof. exists (mkCfg 0 0 0 0 2 2 2 false false). split; [easy|]. intros. eexists. split; reflexivity. Qed.

(** C41: with more than 101 threads the running index, once wrapped around, sends tasks of the default strategy to the queue of long tasks. *)
Definition defaults (n : nat) : list plabel := map (fun k => LSubmit k (-1) false k) (seq 0 n).
Lemma wrap_small z : (- 2 ^ 31 <= z < 2 ^ 31)%Z -> wrap32 z = z.
Proof. intros H. unfold wrap32. rewrite Z.mod_small; lia. Qed.
Lemma wrap_succ z : wrap32 (wrap32 z + 1) = wrap32 (z + 1).
Proof. unfold wrap32. replace ((z + 2 ^ 31) mod 2 ^ 32 - 2 ^ 31 + 1 + 2 ^ 31)%Z with ((z + 2 ^ 31) mod 2 ^ 32 + 1)%Z by lia. rewrite Zplus_mod_idemp_l. f_equal. f_equal. lia. Qed.
Lemma defaults_run c : c_max c <> 0 -> forall n s, p_init s = true -> p_cur s = 0%Z -> p_prio s = [] -> (forall i, p_lk s i = None) ->
  exists s', pool_run c s (defaults n) = Some s' /\ p_init s' = true /\ p_cur s' = wrap32 (Z.of_nat n) /\ p_sec s' = p_sec s /\ (forall i, p_lk s' i = None) /\ (forall a, In a (map fst (p_prio s')) -> a < n).
Proof.
  intros Hm n s Hi Hc Hp Hl. induction n as [|n IH].
  - exists s. rewrite Hp, Hc. do 4 (split; [easy|]). easy.
  - destruct IH as [s1 [E1 [I1 [C1 [P1 [L1 A1]]]]]]. unfold defaults. rewrite seq_S, map_app. cbn [map Nat.add].
    set (l := LSubmit n (-1) false n).
    assert (St : exists s2, pool_step c s1 l = Next s2 /\ p_init s2 = true /\ p_cur s2 = wrap32 (p_cur s1 + 1) /\ p_sec s2 = p_sec s1 /\ p_lk s2 = p_lk s1 /\ (forall a, In a (map fst (p_prio s2)) -> a < S n)).
    { subst l. cbn [pool_step]. unfold dispatch. cbn [Z.eqb Pos.eqb]. rewrite (proj2 (Nat.eqb_neq _ _) Hm). rewrite Bool.andb_false_r. destruct (dest c _).
      - rewrite I1, L1. eexists. split; [reflexivity|]. pc. do 4 (split; [easy|]). intros a Ha. specialize (A1 a Ha). lia.
      - eexists. split; [reflexivity|]. pc. do 4 (split; [easy|]). intros a Ha. specialize (A1 a Ha). lia.
      - unfold push_prio. pc. destruct (memb n (map fst (p_prio s1))) eqn:M; [apply memb_in in M; specialize (A1 n M); lia|]. eexists. split; [reflexivity|]. pc. do 4 (split; [easy|]).
        rewrite map_app. intros a Ha. apply in_app_iff in Ha. destruct Ha as [Ha|[<-|[]]]; [specialize (A1 a Ha); lia|cbn; lia]. }
    destruct St as [s2 [E2 [I2 [C2 [P2 [L2 A2]]]]]]. exists s2. split; [apply run_app; exists s1; split; [exact E1|]; cbn [pool_run]; now rewrite E2|].
    split; [easy|]. split; [rewrite C2, C1, wrap_succ; f_equal; lia|]. split; [congruence|]. split; [|easy]. intros i. rewrite L2. apply L1.
Qed.
Theorem C41_wrap_refuted : exists c n s, cfg_check c = true /\ pool_run c pool_new (LInit :: defaults n) = Some s /\ p_init s = true /\ p_sec s = [] /\
  exists s', pool_step c s (LSubmit n (-1) false n) = Next s' /\ content s' QPrio = content s QPrio ++ [n] /\ p_sec s' = [] /\ forall i, i < c_def c -> ~ prim_polls c i QPrio.
Proof.
  set (c := mkCfg 8 0 102 7 2 2 2 false false). assert (Hn : exists n, Z.of_nat n = (2 ^ 32 - 101)%Z) by (exists (Z.to_nat (2 ^ 32 - 101)); apply Z2Nat.id; easy). destruct Hn as [n Hn].
  destruct (pool_run c pool_new [LInit]) as [s0|] eqn:E0; [|discriminate].
  assert (H0 : p_init s0 = true /\ p_cur s0 = 0%Z /\ p_prio s0 = [] /\ p_sec s0 = [] /\ (forall i, p_lk s0 i = None)) by (injection E0 as <-; easy).
  destruct H0 as [A [B [C [D F]]]].
  destruct (defaults_run c ltac:(easy) n s0 A B C F) as [s [E [I [Cu [Sx [L Ad]]]]]].
  exists c, n, s. split; [easy|]. split; [change (LInit :: defaults n) with ([LInit] ++ defaults n); apply run_app; eauto|]. split; [easy|]. split; [congruence|].
  assert (Hc : p_cur s = (-101)%Z) by (rewrite Cu, Hn; reflexivity).
  assert (Hf : memb n (map fst (p_prio s)) = false) by (apply memb_false; intros H; specialize (Ad n H); lia).
  cbn [pool_step]. rewrite Hc. assert (Hd : forall b, dispatch c (-101) (-1) b = Some (-101, -100)%Z) by (intros [|]; reflexivity). rewrite Hd.
  assert (He : dest c (-101) = QPrio) by reflexivity. rewrite He. unfold push_prio. pc. rewrite Hf. eexists. split; [reflexivity|]. cbn [content]. pc. rewrite map_app. split; [easy|]. split; [congruence|]. intros i _ H. exact H.
Qed.
(** C41: batch sizes of zero are accepted, and then tasks for the only primary thread are never taken from its queue. *)
Theorem C41_batch_refuted : exists c, cfg_check c = true /\ exists s, pool_run c pool_new [LInit; LSubmit 10 0 false 0] = Some s /\
  forall ls s', pool_run c s ls = Some s' -> (forall l, In l ls -> In 10 (given1 l) -> False) -> ~ In 10 (p_log s').
Proof.
  exists (mkCfg 1 0 1 0 0 2 2 true false). split; [easy|]. eexists. split; [reflexivity|]. set (c := mkCfg 1 0 1 0 0 2 2 true false).
  set (bad := fun s => p_nsec s = 0 /\ p_sec s = [] /\ (forall k, In k (p_call s) -> (k_num k <= 0)%Z) /\ ~ In 10 (p_q s) /\ (forall i, ~ In 10 (p_held (p_pt s i))) /\ ~ In 10 (p_log s)).
  match goal with |- forall ls s', pool_run c ?s0 ls = Some s' -> _ => assert (B0 : pinv c s0 /\ bad s0) end.
  { split; [refine (proj1 (pool_run_inv c [LInit; LSubmit 10 0 false 0] pool_new _ (pinv_new c) _)); reflexivity|]. unfold bad. pc. cbn. do 4 (split; [easy|]). split; [|easy]. intros i. destruct i; easy. }
  assert (T0 : forall l, own_take c l = ([], l)) by (intros [|x l]; reflexivity).
  assert (N0 : forall i m, nth_error (targets c i) m = None) by (intros i [|m]; reflexivity).
  assert (St : forall s l s', pinv c s -> bad s -> (In 10 (given1 l) -> False) -> pool_step c s l = Next s' -> bad s').
  { clear B0. intros s l s' PI [A1 [A2 [A3 [A4 [A5 A6]]]]] Hg E. assert (RS : forall n, (real_size c s n <= 0)%Z) by (intros n; unfold real_size, c; cbn [c_max c_def]; lia). unfold bad.
    destruct l as [|t' idx busy a|p t' tid en lk|u t' prio a|u n|u|k ok|k ok|k|k|k|]; cbn [pool_step] in E.
    - injection E as <-. unfold pool_init. destruct (p_init s); [easy|]. rewrite spawn_none by apply RS. pc. do 3 (split; [easy|]). split; [easy|]. split; [|easy]. intros i. destruct (Nat.ltb i (c_def c)); easy.
    - assert (Hq : ~ In 10 (p_q s ++ [t'])) by (rewrite in_app_iff; cbn in *; intuition).
      destruct (dispatch c (p_cur s) idx busy) as [[r cur']|] eqn:D; [|discriminate]. unfold push_prio in E. destruct (dest c r); dmx E; injection E as <-; pc; easy.
    - assert (Hq : ~ In 10 (p_q s ++ [t'])) by (rewrite in_app_iff; cbn in *; intuition). destruct (_ && _)%bool; [|injection E as <-; pc; easy].
      destruct (negb (p_init s)); [discriminate|]. destruct (en && lk)%bool; dmx E; injection E as <-; try destruct en; pc; easy.
    - destruct (find_call u (p_call s)); [discriminate|]. injection E as <-. pc. do 2 (split; [easy|]). split; [|easy]. intros k [<-|Hk]; [|auto]. cbn. rewrite A2. apply RS.
    - destruct (find_call u (p_call s)); [discriminate|]. injection E as <-. pc. do 2 (split; [easy|]). split; [|easy]. intros k [<-|Hk]; [|auto]. cbn. apply RS.
    - destruct (find_call u (p_call s)) as [k|] eqn:F; [|discriminate]. apply find_call_some in F. destruct F as [F _]. rewrite spawn_none in E by auto. unfold push_prio in E. nx E; (do 2 (split; [easy|])); (split; [|easy]); intros k' Hk; apply filter_In in Hk; now apply A3.
    - unfold prim_step in E. assert (K : forall x, ~ In 10 (p_held x) -> forall i, ~ In 10 (p_held (upd (p_pt s) k x i))) by (intros x Hx i; unfold upd; destruct (Nat.eqb i k); [easy|apply A5]).
      destruct (p_pt s k) as [| |[|m]|[|x r]|] eqn:P; try discriminate.
      + injection E as <-. pc. do 4 (split; [easy|]). split; [|easy]. apply K. now destruct (p_stop s k).
      + rewrite T0 in E. destruct (if ok then _ else _); injection E as <-; pc; (do 4 (split; [easy|])); (split; [|easy]); now apply K.
      + rewrite N0 in E. destruct (pool_take c (p_q s)) as [a b] eqn:T. apply pool_take_app in T. rewrite T in A4. destruct (not_in_app A4) as [T1 T2].
        destruct ok, a as [|x a]; injection E as <-; pc; (do 3 (split; [easy|])); (split; [rewrite ?T; easy|]); (split; [|easy]); now apply K.
      + injection E as <-. pc. do 4 (split; [easy|]). split; [|easy]. now apply K.
      + injection E as <-. specialize (A5 k) as A5k. rewrite P in A5k. cbn in A5k. pc. do 4 (split; [easy|]). split; [|cbn; tauto]. apply K. cbn. tauto.
    - unfold sec_step in E. now rewrite (iv_sec _ _ PI k ltac:(lia)) in E.
    - destruct (_ && _)%bool; [|discriminate]. injection E as <-. easy.
    - rewrite A2 in E. discriminate.
    - destruct (p_st s k); try discriminate. rewrite A2 in E. discriminate.
    - destruct (p_init s && _ && _)%bool; [|discriminate]. destruct (existsb _ _); [discriminate|]. injection E as <-. pc. easy. }
  intros ls s' E H. destruct B0 as [P0 B0]. revert P0 B0 E. match goal with |- pinv c ?z -> _ => generalize z end. induction ls as [|l ls IH]; intros s PI B E; cbn [pool_run] in E; [injection E as <-; unfold bad in B; tauto|].
  destruct (pool_step c s l) as [| |s1] eqn:E1; try discriminate. apply (IH ltac:(intros x Hx; apply H; now right) s1); [now destruct (pool_step_inv c s l s1 PI E1)| |easy]. apply (St s l); try easy. apply H. now left.
Qed.

(** C43: the order of priorities is not kept: for any two priorities there is a history in which both tasks wait in the queue and the one with the lower
    priority is run first. *)
Theorem C43_refuted : forall lo hi, (lo < hi)%Z -> exists c ls s1 ls2 s2, cfg_check c = true /\ pool_run c pool_new ls = Some s1 /\
  map snd (p_prio s1) = [(hi, 1); (lo, 2)] /\ pool_run c s1 ls2 = Some s2 /\ p_log s2 = [2] /\ map snd (p_prio s2) = [(hi, 1)].
Proof.
  intros lo hi _. exists (mkCfg 1 1 2 1 2 2 2 false false), [LInit; LPrio 1 1 hi 100; LCreate 1; LPrio 1 2 lo 200; LCreate 1].
  eexists. exists [LSec 0 true; LSec 0 true; LSec 0 true; LSec 0 true]. eexists. split; [easy|]. split; [vm_compute; reflexivity|]. split; [reflexivity|]. split; [vm_compute; reflexivity|]. split; reflexivity.
Qed.
(** C43 (the part that holds): a thread takes exactly one task, the one whose entry has the greatest address; so priorities are respected when
    higher priorities happen to have higher addresses. *)
Theorem C43_partial : forall c s j s', p_st s j = STryPrio -> p_prio s <> [] -> pool_step c s (LSec j true) = Next s' ->
  exists e, In e (p_prio s) /\ p_st s' j = SRun [snd (snd e)] /\ p_prio s' = filter (fun x => negb (Nat.eqb (fst x) (fst e))) (p_prio s) /\
  (forall x, In x (p_prio s) -> fst x <= fst e) /\
  ((forall x y, In x (p_prio s) -> In y (p_prio s) -> (fst (snd x) < fst (snd y))%Z -> fst x < fst y) -> forall x, In x (p_prio s) -> (fst (snd x) <= fst (snd e))%Z).
Proof.
  intros c s j s' P N E. cbn [pool_step] in E. unfold sec_step in E. rewrite P in E. unfold prio_take in E. destruct (top (p_prio s)) as [e|] eqn:T; [|now apply top_none in T].
  injection E as <-. pc. exists e. pose proof (top_in _ _ T) as Hi. pose proof (top_max _ _ T) as Hm. split; [easy|]. split; [now rewrite upd_same|]. split; [easy|]. split; [easy|].
  intros Ho x Hx. destruct (Z.le_gt_cases (fst (snd x)) (fst (snd e))) as [H|H]; [easy|]. specialize (Ho e x Hi Hx H). specialize (Hm x Hx). lia.
Qed.

(** C44: two calls that create threads may overlap: both compute how many are allowed before either creates any. *)
Theorem C44_refuted : exists c ls s, cfg_check c = true /\ pool_run c pool_new ls = Some s /\ p_init s = true /\ (forall j, In j (p_sec s) -> p_st s j <> SExit) /\ c_max c < c_def c + length (p_sec s).
Proof.
  exists (mkCfg 1 0 2 1 2 2 2 false false), [LInit; LMore 1 1; LMore 2 1; LCreate 1; LCreate 2]. eexists. split; [easy|]. split; [vm_compute; reflexivity|]. split; [easy|]. cbn. split; [|lia].
  intros j [<-|[<-|[]]]; easy.
Qed.
(** C44: it happens also through commitWithPriority alone. *)
Theorem C44_prio_refuted : exists c ls s, cfg_check c = true /\ pool_run c pool_new ls = Some s /\ (forall l, In l ls -> match l with LMore _ _ => False | _ => True end) /\ c_max c < c_def c + length (p_sec s).
Proof.
  exists (mkCfg 1 0 2 1 2 2 2 false false), [LInit; LPrio 1 10 5 1; LPrio 2 11 5 2; LCreate 1; LCreate 2]. eexists. split; [easy|]. split; [vm_compute; reflexivity|]. split; [|cbn; lia].
  intros l [<-|[<-|[<-|[<-|[<-|[]]]]]]; easy.
Qed.
(** C44 (the part that holds): if no two calls that create threads overlap the number of threads never exceeds the maximum. *)
Lemma spawn_len k : forall s, length (p_sec (spawn k s)) = length (p_sec s) + k /\ p_call (spawn k s) = p_call s.
Proof. induction k as [|k IH]; intros s; cbn [spawn]; [now rewrite Nat.add_0_r|]. destruct (IH (mkPool (p_init s) (p_cur s) (p_wsq s) (p_lk s) (p_q s) (p_prio s) (p_pt s) (p_stop s) (upd (p_st s) (p_nsec s) SLoop) (upd (p_sstop s) (p_nsec s) false) (S (p_nsec s)) (p_sec s ++ [p_nsec s]) (p_call s) (p_log s) (p_drop s))) as [A B]. rewrite A, B. pc. rewrite app_length. cbn. split; [lia|easy]. Qed.
Definition room (c : cfg) (busy : bool) (s : pool) : Prop :=
  c_def c + length (p_sec s) <= c_max c /\
  (if busy then exists k, p_call s = [k] /\ (Z.of_nat (c_def c + length (p_sec s)) + k_num k <= Z.of_nat (c_max c))%Z else p_call s = []).
Lemma room_run c : forall ls busy s s', room c busy s -> serial busy ls -> pool_run c s ls = Some s' -> exists b, room c b s'.
Proof.
  induction ls as [|l ls IH]; intros busy s s' R S E; cbn [pool_run] in E; [injection E as <-; eauto|]. destruct (pool_step c s l) as [| |s1] eqn:E1; try discriminate.
  assert (SAME : forall b, serial b ls -> room c b s -> p_call s1 = p_call s -> length (p_sec s1) <= length (p_sec s) -> exists b, room c b s').
  { intros b Sb [R1 R2] Hc Hl. apply (IH b s1 s'); try easy. split; [lia|]. rewrite Hc. destruct b; [|easy]. destruct R2 as [k [R2 R3]]. exists k. split; [easy|]. lia. }
  assert (RS : forall n, (Z.of_nat (c_def c + length (p_sec s)) + real_size c s n <= Z.of_nat (c_max c))%Z) by (intros n; unfold real_size; lia).
  destruct l as [|t' idx bu a|p t' tid en lk|u t' prio a|u n|u|k ok|k ok|k|k|k|]; cbn [serial pool_step] in S, E1.
  - destruct S as [-> S]. injection E1 as <-. apply (IH false (pool_init c s) s'); try easy. destruct R as [R1 R2]. unfold pool_init. destruct (p_init s); [easy|].
    match goal with |- room c false (spawn ?k ?z) => destruct (spawn_len k z) as [A B] end. split; [|rewrite B; exact R2]. rewrite A. pc. specialize (RS (c_sec c)). lia.
  - unfold push_prio in E1. apply (SAME busy S R); nx E1; easy.
  - apply (SAME busy S R); (destruct (_ && _)%bool; [|now injection E1 as <-]); (destruct (negb (p_init s)); [discriminate|]); (destruct (en && lk)%bool; dmx E1; injection E1 as <-; try destruct en; pc; easy).
  - destruct S as [-> S]. destruct R as [R1 R2]. destruct (find_call u (p_call s)); [discriminate|]. injection E1 as <-. refine (IH true _ s' _ S E). split; [easy|]. pc. rewrite R2. eexists. split; [reflexivity|]. cbn [k_num]. specialize (RS 1%Z). destruct (match p_sec s with [] => _ | _ => _ end) eqn:M; destruct (p_sec s); try lia; subst; try exact RS.
  - destruct S as [-> S]. destruct R as [R1 R2]. destruct (find_call u (p_call s)); [discriminate|]. injection E1 as <-. refine (IH true _ s' _ S E). split; [easy|]. pc. rewrite R2. eexists. split; [reflexivity|]. cbn [k_num]. apply RS.
  - destruct (find_call u (p_call s)) as [k|] eqn:F; [|discriminate]. apply find_call_some in F. destruct F as [F Fu]. destruct R as [R1 R2]. destruct busy; [|rewrite R2 in F; contradiction].
    destruct R2 as [k' [R2 R3]]. rewrite R2 in F. destruct F as [->|[]]. destruct (spawn_len (Z.to_nat (k_num k)) s) as [A B].
    assert (EC : end_call u (p_call s) = []) by (rewrite R2; cbn; now rewrite (proj2 (Nat.eqb_eq _ _) Fu)).
    apply (IH false s1 s'); try easy. unfold push_prio in E1. destruct (k_task k) as [[a [prio t]]|]; [destruct (memb _ _); [discriminate|]|]; injection E1 as <-; split; pc; rewrite ?A, ?EC; easy || lia.
  - unfold prim_step in E1. apply (SAME busy S R); nx E1; easy.
  - unfold sec_step in E1. apply (SAME busy S R); nx E1; easy.
  - apply (SAME busy S R); nx E1; easy.
  - apply (SAME busy S R); nx E1; easy.
  - apply (SAME busy S R); dmx E1; injection E1 as <-; pc; try easy. clear. induction (p_sec s) as [|x r IH]; [easy|]. cbn. destruct (negb _); cbn; lia.
  - destruct (p_init s && _ && _)%bool; [|discriminate]. destruct (existsb _ _); [discriminate|]. injection E1 as <-. apply (SAME busy S R); pc; [easy|cbn; lia].
Qed.
Theorem C44_partial : forall c ls s, cfg_check c = true -> serial false ls -> pool_run c pool_new ls = Some s -> c_def c + length (p_sec s) <= c_max c.
Proof.
  intros c ls s Hc S E. unfold cfg_check in Hc. apply Bool.andb_true_iff in Hc. destruct Hc as [H1 H2]. apply Z.leb_le in H1, H2.
  destruct (room_run c ls false pool_new s) as [b [R _]]; [|easy|easy|easy]. split; [cbn; lia|easy].
Qed.
(** C44: a configuration that passes the check leaves room for the secondary threads it asks for: init creates all of them. *)
Theorem C44_init_partial : forall c, cfg_check c = true -> exists s, pool_run c pool_new [LInit] = Some s /\ Z.of_nat (length (p_sec s)) = c_sec c /\ c_def c + length (p_sec s) <= c_max c.
Proof.
  intros c Hc. unfold cfg_check in Hc. apply Bool.andb_true_iff in Hc. destruct Hc as [H1 H2]. apply Z.leb_le in H1, H2. eexists. split; [reflexivity|]. unfold pool_init. cbn [p_init pool_new].
  match goal with |- context [spawn ?k ?z] => destruct (spawn_len k z) as [-> _] end. unfold real_size. pc. cbn [length Nat.add p_sec pool_new]. lia.
Qed.
Definition c44_ls : list plabel := [LInit; LMore 1 1; LSubmit 10 0 false 0; LCreate 1; LMore 2 5; LCreate 2; LMore 1 5; LCreate 1].
Example C44_case : serial false c44_ls /\ exists s, pool_run (mkCfg 1 0 3 1 2 2 2 false false) pool_new c44_ls = Some s /\ length (p_sec s) = 2.
Proof. split; [cbn; tauto|]. eexists. split; [vm_compute; reflexivity|]. reflexivity. Qed.

(** C70: tasks accepted and not yet taken by a thread when the pool is destroyed are lost. *)
Lemma drop_grows c : forall ls s s', pool_run c s ls = Some s' -> incl (p_drop s) (p_drop s').
Proof.
  induction ls as [|l ls IH]; intros s s' E; cbn [pool_run] in E; [injection E as <-; apply incl_refl|]. destruct (pool_step c s l) as [| |s1] eqn:E1; try discriminate.
  assert (D : incl (p_drop s) (p_drop s1)).
  { destruct (p_init s) eqn:Hi.
    - destruct l; try (destruct (drop_step c s _ s1 E1) as [-> _]; [discriminate|easy|apply incl_refl]). cbn [pool_step] in E1. destruct (p_init s && _ && _)%bool; [|discriminate]. destruct (existsb _ _); [discriminate|]. injection E1 as <-. pc. apply incl_appr, incl_refl.
    - destruct l; try (destruct (drop_step c s _ s1 E1) as [-> _]; [discriminate|discriminate|apply incl_refl]).
      + cbn [pool_step] in E1. injection E1 as <-. unfold pool_init. rewrite Hi. assert (SP : forall k s, p_drop (spawn k s) = p_drop s) by (induction k as [|k IHk]; intros x; [easy|]; cbn [spawn]; now rewrite IHk). rewrite SP. pc. apply incl_appr, incl_refl.
      + cbn [pool_step] in E1. rewrite Hi in E1. discriminate. }
  intros x Hx. apply (IH s1 s' E). now apply D.
Qed.
Theorem C70_refuted : exists c ls s, cfg_check c = true /\ pool_run c pool_new ls = Some s /\ count_occ Nat.eq_dec (given ls) 10 = 1 /\ p_init s = false /\
  forall ls' s', pool_run c s ls' = Some s' -> ~ In 10 (given ls') -> ~ In 10 (p_log s').
Proof.
  exists (mkCfg 1 0 1 0 2 2 2 false false), [LInit; LSubmit 10 (-1) false 0; LStop 0; LPrim 0 true; LFinish]. eexists. split; [easy|]. split; [vm_compute; reflexivity|]. split; [easy|]. split; [easy|].
  intros ls' s' E Hn. set (c := mkCfg 1 0 1 0 2 2 2 false false) in *.
  assert (D : In 10 (p_drop s')) by (apply (drop_grows c _ _ _ E); now left).
  assert (E2 : pool_run c pool_new ([LInit; LSubmit 10 (-1) false 0; LStop 0; LPrim 0 true; LFinish] ++ ls') = Some s') by (apply run_app; eexists; split; [reflexivity|exact E]).
  destruct (C40_once c _ s' 10 E2) as [_ [H _]].
  - unfold given in *. rewrite flat_map_app, cnt_app. apply (count_occ_not_In Nat.eq_dec) in Hn. now rewrite Hn.
  - intros Hl. apply (H Hl). rewrite !in_app_iff. tauto.
Qed.
(** C70 (the part that holds): destroy waits for the tasks the threads have taken; what is lost is what was in the queues of the primary threads. The queues of
    the pool stay, but the next init empties the queue of the pool. *)
Theorem C70_partial : forall c h s s', pool_run c pool_new h = Some s -> pool_step c s LFinish = Next s' ->
  in_threads c s = [] /\ p_log s' = p_log s /\ p_drop s' = flat_map (p_wsq s) (seq 0 (c_def c)) ++ p_drop s /\ p_q s' = p_q s /\ p_prio s' = p_prio s /\
  p_drop (pool_init c s') = p_q s' ++ p_drop s'.
Proof.
  intros c h s s' E E1. destruct (live_run c h pool_new s (live_new c) E) as [A B C]. cbn [pool_step] in E1. destruct (p_init s && _ && _)%bool eqn:G; [|discriminate]. destruct (existsb _ _); [discriminate|]. injection E1 as <-. pc.
  apply Bool.andb_true_iff in G. destruct G as [G G3]. apply Bool.andb_true_iff in G. destruct G as [G1 G2]. rewrite forallb_forall in G2, G3.
  split.
  - assert (FN : forall (f : nat -> list nat) l, (forall x, In x l -> f x = []) -> flat_map f l = []) by (intros f l; induction l as [|x r IHl]; intros H; [easy|]; cbn; rewrite H by (now left); apply IHl; intros y Hy; apply H; now right).
    unfold in_threads. match goal with |- ?a ++ ?b = [] => enough (a = [] /\ b = []) as [-> ->] by easy end. split.
    + apply FN. intros i Hi. specialize (G2 i Hi). now destruct (p_pt s i).
    + apply FN. intros j Hj. apply in_seq in Hj. destruct (p_st s j) as [| | | |l|] eqn:P; try easy. specialize (C j ltac:(lia) ltac:(congruence)). specialize (G3 j C). now rewrite P in G3.
  - do 4 (split; [easy|]). unfold pool_init. pc. assert (SP : forall k s, p_drop (spawn k s) = p_drop s) by (induction k as [|k IHk]; intros x; [easy|]; cbn [spawn]; now rewrite IHk). now rewrite SP.
Qed.
(** C71: tasks given to a pool that is not initialised are not refused: with the default strategy the call is undefined, and with the strategy of the common
    queue the task is accepted and then dropped by init without having been run. *)
Theorem C71_undefined_refuted : forall c t busy a, 0 < c_def c <= c_max c -> pool_step c pool_new (LSubmit t (-1) busy a) = Undef \/ (busy = true /\ c_deliver c = false).
Proof.
  intros c t busy a [H1 H2]. cbn [pool_step pool_new p_cur p_init]. unfold dispatch. cbn [Z.eqb Pos.eqb]. destruct (Nat.eqb_spec (c_max c) 0); [lia|]. rewrite Z.rem_0_l by lia. cbn [Z.leb Z.compare andb].
  destruct (Z.ltb_spec 0 (Z.of_nat (c_def c))); [|lia]. rewrite !Bool.andb_true_r. destruct (c_deliver c), busy; cbn [negb andb]; try (left; unfold dest; cbn [Z.leb Z.compare andb]; destruct (Z.ltb_spec 0 (Z.of_nat (c_def c))); [easy|lia]). now right.
Qed.
Theorem C71_dropped_refuted : forall c t, 0 < c_def c -> exists s, pool_run c pool_new [LSubmit t (-2) false 0; LInit] = Some s /\ p_init s = true /\ p_drop s = [t] /\ p_log s = [] /\
  forall ls s', pool_run c s ls = Some s' -> ~ In t (given ls) -> ~ In t (p_log s').
Proof.
  intros c t Hd. cbn [pool_run pool_step]. unfold dispatch. cbn [Z.eqb Pos.eqb]. unfold dest at 1. cbn [Z.leb Z.compare andb Z.eqb Pos.eqb]. eexists. split; [reflexivity|].
  assert (SP : forall k s, p_drop (spawn k s) = p_drop s /\ p_init (spawn k s) = p_init s /\ p_log (spawn k s) = p_log s) by (induction k as [|k IHk]; intros x; [easy|]; cbn [spawn]; destruct (IHk (mkPool (p_init x) (p_cur x) (p_wsq x) (p_lk x) (p_q x) (p_prio x) (p_pt x) (p_stop x) (upd (p_st x) (p_nsec x) SLoop) (upd (p_sstop x) (p_nsec x) false) (S (p_nsec x)) (p_sec x ++ [p_nsec x]) (p_call x) (p_log x) (p_drop x))) as [-> [-> ->]]; easy).
  set (s1 := set_cur (set_q pool_new (p_q pool_new ++ [t])) (p_cur pool_new)).
  assert (D : p_drop (pool_init c s1) = [t] /\ p_init (pool_init c s1) = true /\ p_log (pool_init c s1) = []).
  { unfold pool_init. cbn [s1 set_cur set_q p_init pool_new]. match goal with |- context [spawn ?k ?z] => destruct (SP k z) as [-> [-> ->]] end. easy. }
  destruct D as [D1 [D2 D3]]. do 3 (split; [easy|]).
  intros ls s' E Hn. assert (D : In t (p_drop s')) by (apply (drop_grows c _ _ _ E); rewrite D1; now left).
  assert (E2 : pool_run c pool_new ([LSubmit t (-2) false 0; LInit] ++ ls) = Some s').
  { apply run_app. exists (pool_init c s1). split; [|exact E]. cbn [pool_run pool_step]. unfold dispatch. cbn [Z.eqb Pos.eqb]. unfold dest. cbn [Z.leb Z.compare andb Z.eqb Pos.eqb]. easy. }
  destruct (C40_once c _ s' t E2) as [_ [H _]].
  - unfold given in *. rewrite flat_map_app, cnt_app. apply (count_occ_not_In Nat.eq_dec) in Hn. rewrite Hn. cbn. destruct (Nat.eq_dec t t); [easy|congruence].
  - intros Hl. apply (H Hl). rewrite !in_app_iff. tauto.
Qed.
(** C71 (the part that holds): nothing is run before init unless secondary threads have been asked for. *)
Theorem C71_partial : forall c ls s, pool_run c pool_new ls = Some s -> (forall l, In l ls -> match l with LInit | LPrio _ _ _ _ | LMore _ _ => False | _ => True end) -> p_log s = [].
Proof.
  intros c. assert (G : forall ls s s', pool_run c s ls = Some s' -> (forall l, In l ls -> match l with LInit | LPrio _ _ _ _ | LMore _ _ => False | _ => True end) ->
    p_init s = false -> p_call s = [] -> (forall i, p_pt s i = PNone) -> (forall j, p_st s j = SExit) -> p_log s' = p_log s).
  { induction ls as [|l ls IH]; intros s s' E H I K P S; cbn [pool_run] in E; [now injection E as <-|]. destruct (pool_step c s l) as [| |s1] eqn:E1; try discriminate.
    assert (Hr : forall x, In x ls -> match x with LInit | LPrio _ _ _ _ | LMore _ _ => False | _ => True end) by (intros x Hx; apply H; now right). specialize (H l (or_introl eq_refl)).
    assert (N : p_log s1 = p_log s -> p_init s1 = p_init s -> p_call s1 = p_call s -> p_pt s1 = p_pt s -> p_st s1 = p_st s -> p_log s' = p_log s).
    { intros L1 L2 L3 L4 L5. rewrite <- L1. apply (IH s1 s' E Hr); rewrite ?L2, ?L3, ?L4, ?L5; easy. }
    destruct l as [|t' idx bu a|p t' tid en lk|u t' prio a|u n|u|k ok|k ok|k|k|k|]; try contradiction; cbn [pool_step] in E1.
    - unfold push_prio in E1. dmx E1; injection E1 as <-; now apply N.
    - destruct (_ && _)%bool; [rewrite I in E1; discriminate|]. injection E1 as <-. now apply N.
    - rewrite K in E1. discriminate.
    - unfold prim_step in E1. now rewrite P in E1.
    - unfold sec_step in E1. now rewrite S in E1.
    - rewrite I in E1. discriminate.
    - dmx E1. injection E1 as <-. now apply N.
    - rewrite S in E1. dmx E1. injection E1 as <-. now apply N.
    - rewrite I in E1. discriminate. }
  intros ls s E H. exact (G ls pool_new s E H eq_refl eq_refl (fun _ => eq_refl) (fun _ => eq_refl)).
Qed.
Example C71_case : exists s, pool_run cfg_default pool_new [LSubmit 10 (-2) false 0; LSubmit 11 (-101) false 1] = Some s /\ in_queues cfg_default s = [10; 11].
Proof. eexists. split; [vm_compute; reflexivity|]. reflexivity. Qed.
Print Assumptions C41_polled_partial. Print Assumptions C41_executed_partial. Print Assumptions C41_drain_secondary_partial. Print Assumptions C41_alive_partial. Print Assumptions C41_longtime_refuted. Print Assumptions C41_wrap_refuted.
Print Assumptions C43_refuted. Print Assumptions C43_partial. Print Assumptions C44_partial. Print Assumptions C44_refuted. Print Assumptions C70_refuted. Print Assumptions C70_partial. Print Assumptions C71_dropped_refuted. Print Assumptions C71_partial.
