(** C48, C83, C84: singletons. *)
From Verif Require Import SingleModel SingleSpec SingleProofs.
Local Open Scope nat_scope.
Local Open Scope list_scope.

(** C48, for every history of any number of pipelines: init is only called when the object is not alive, destroy only when it is; so between two successful inits there is a destroy. *)
Theorem C48_alternate_partial : forall h, alternate (calls h).
Proof. intros h. exact (proj1 (play_good h start)). Qed.

(** What a run of a pipeline does with the object. *)
Lemma run_shape g p : snd (play g [ORun p]) = if p_dead (pipes g p) || negb (p_init (pipes g p)) then [] else run_events g p.
Proof. cbn [play step]. destruct (p_dead (pipes g p) || negb (p_init (pipes g p))); cbn; rewrite ?app_nil_r; reflexivity. Qed.
Lemma run_events_prefix g p a e b : run_events g p = a ++ e :: b -> forall x, alive_from x a = x.
Proof.
  intros E x. apply runs_only. intros y Hy. exists p. apply (run_events_run g p). rewrite E. apply in_or_app. left. exact Hy.
Qed.
Lemma run_events_shared g p e : In e (run_events g p) -> In Shared (p_items (pipes g p)).
Proof. unfold run_events. intros H. apply in_flat_map in H. destruct H as [[|] [H1 H]]; [destruct H|exact H1]. Qed.
(** After the init of [p] the pipeline keeps its elements, and if one of them is shared the object is alive as long as no pipeline is destroyed. *)
Lemma init_then g p res : snd (step g (OInit p res)) = true ->
  let g' := fst (fst (step g (OInit p res))) in p_init (pipes g' p) = true /\ (In Shared (p_items (pipes g' p)) -> flag g' = true).
Proof.
  cbn [step]. destruct (p_dead (pipes g p) || p_init (pipes g p)); [discriminate|].
  pose proof (init_sets res (p_items (pipes g p)) 0 g) as K. destruct (each single_init res 0 (p_items (pipes g p)) g) as [[g1 es] b]. cbn [fst snd] in *. intros ->. cbn. rewrite upd_same. cbn. auto.
Qed.
Lemma play_init p : forall h g, no_destroy h -> p_init (pipes g p) = true -> p_init (pipes (fst (play g h)) p) = true /\ p_items (pipes (fst (play g h)) p) = p_items (pipes g p).
Proof.
  assert (K : forall g o, (forall q res, o <> ODestroy q res) -> p_init (pipes g p) = true -> p_init (pipes (fst (fst (step g o))) p) = true /\ p_items (pipes (fst (fst (step g o))) p) = p_items (pipes g p)).
  { intros g o Hd Hp. destruct o as [q k nm|q k|q res|q|q res|q]; try (destruct (Nat.eq_dec q p) as [->|Hq]; [|rewrite step_pipe by exact Hq; auto]); cbn [step].
    - rewrite Hp, orb_true_r. auto.
    - rewrite Hp, orb_true_r. auto.
    - rewrite Hp, orb_true_r. auto.
    - destruct (p_dead (pipes g p) || negb (p_init (pipes g p))); auto.
    - exfalso. exact (Hd p res eq_refl).
    - cbn. rewrite upd_same. auto. }
  induction h as [|o h IH]; intros g Hd Hp; cbn [play]; [auto|]. destruct (K g o) as [H1 H2]; auto; [intros q res ->; exact (Hd q res (or_introl eq_refl))|].
  destruct (step g o) as [[g1 e1] b]. cbn [fst snd] in *. specialize (IH g1 (fun q res H => Hd q res (or_intror H)) H1). destruct (play g1 h). cbn [fst] in *. rewrite <- H2. exact IH.
Qed.

(** A run of a pipeline finds the object alive, whatever the other pipelines do meanwhile, if no pipeline has been destroyed since its own init. *)
Theorem C48_run_alive_partial : forall h1 p res h2, returns h1 (OInit p res) true -> no_destroy h2 ->
  let h := h1 ++ OInit p res :: h2 in forall a b q ok, calls (h ++ [ORun p]) = calls h ++ a ++ ERun p q ok :: b -> alive (calls h ++ a) = true.
Proof.
  intros h1 p res h2 Hr Hd h a b q ok E. rewrite calls_app in E. apply app_inv_head in E. rewrite run_shape in E.
  destruct (p_dead (pipes (after h) p) || negb (p_init (pipes (after h) p))) eqn:G; [destruct a; discriminate|].
  unfold alive. rewrite alive_from_app, (run_events_prefix _ _ _ _ _ E). change (alive (calls h) = true). rewrite <- flag_alive.
  assert (Hs : In Shared (p_items (pipes (after h) p))) by (apply (run_events_shared _ _ (ERun p q ok)); rewrite E; apply in_or_app; right; left; reflexivity).
  destruct (init_then (after h1) p res Hr) as [I1 I2]. set (g1 := fst (fst (step (after h1) (OInit p res)))) in *.
  assert (Eh : after h = fst (play g1 h2)).
  { unfold h. rewrite after_app. cbn [play]. unfold g1. destruct (step (after h1) (OInit p res)) as [[g2 e2] b2]. cbn [fst]. destruct (play g2 h2). reflexivity. }
  rewrite Eh in *. destruct (play_init p h2 g1 Hd I1) as [_ Ei]. rewrite Ei in Hs. exact (play_keeps p h2 g1 Hd (I2 Hs) I1).
Qed.

(** One pipeline with any number of elements that share the object (other pipelines have none), and no destroy that fails: the object is only run while it is alive, in every history. *)
Lemma no_shared_each f res : forall l k g, ~ In Shared l -> fst (fst (each f res k l g)) = g.
Proof.
  induction l as [|i l IH]; intros k g H; cbn [each]; [reflexivity|]. destruct i; [|exfalso; apply H; left; reflexivity]. destruct (res k); [apply IH; intros K; apply H; right; exact K|reflexivity].
Qed.
Lemma in_insert {A} k (x y : A) l : In y (insert_at k x l) <-> y = x \/ In y l.
Proof.
  unfold insert_at. rewrite in_app_iff. cbn. rewrite <- (firstn_skipn k l) at 3. rewrite in_app_iff. split; [intros [H|[H|H]]|intros [H|[H|H]]]; auto.
Qed.
Lemma each_all_ok f res : (forall k, res k = true) -> (forall g, snd (f g true) = true) -> forall l k g, snd (each f res k l g) = true.
Proof.
  intros Hr Hf. induction l as [|i l IH]; intros k g; cbn [each]; [reflexivity|]. destruct i; rewrite Hr; [apply IH|]. pose proof (Hf g) as H. destruct (f g true) as [[g1 e1] b1]. cbn in H. subst b1.
  specialize (IH (S k) g1). destruct (each f res (S k) l g1) as [[g2 e2] b2]. exact IH.
Qed.
Section One.
Variable p : nat.
Definition one_inv (g : gst) : Prop := (forall q, q <> p -> ~ In Shared (p_items (pipes g q))) /\ (p_init (pipes g p) = true -> In Shared (p_items (pipes g p)) -> flag g = true).
Definition one_op (o : op) : Prop := match o with OReg q _ _ => q = p | ODestroy _ res => forall k, res k = true | _ => True end.
Lemma step_one g o : one_inv g -> one_op o -> one_inv (fst (fst (step g o))) /\ (flag g = true \/ forall q x ok, ~ In (ERun q x ok) (snd (fst (step g o)))).
Proof.
  intros [H1 H2] Ho. assert (N : one_inv g /\ (flag g = true \/ forall q x ok, ~ In (ERun q x ok) [])) by (split; [split; assumption|right; intros ? ? ? []]).
  destruct o as [q k nm|q k|q res|q|q res|q]; cbn [step one_op] in *.
  - subst q. destruct (p_dead (pipes g p) || p_init (pipes g p)); [exact N|]. cbn. split; [|right; intros ? ? ? []]. split; cbn.
    + intros q Hq. rewrite upd_other by auto. auto.
    + rewrite upd_same. cbn. discriminate.
  - destruct (p_dead (pipes g q) || p_init (pipes g q)) eqn:G; [exact N|]. cbn. split; [|right; intros ? ? ? []]. split; cbn.
    + intros q' Hq. destruct (Nat.eq_dec q q') as [->|Hn]; [rewrite upd_same; cbn; rewrite in_insert; intros [K|K]; [discriminate|exact (H1 q' Hq K)]|rewrite upd_other by auto; auto].
    + destruct (Nat.eq_dec q p) as [->|Hn]; [rewrite upd_same; cbn; discriminate|rewrite upd_other by auto; auto].
  - destruct (p_dead (pipes g q) || p_init (pipes g q)) eqn:G; [exact N|]. apply orb_false_iff in G. destruct G as [_ Gi].
    pose proof (each_frame single_init single_init_frame res (p_items (pipes g q)) 0 g) as [_ [_ F]]. pose proof (init_sets res (p_items (pipes g q)) 0 g) as K.
    pose proof (each_good single_init single_init_good res (p_items (pipes g q)) 0 g) as [_ [_ R]]. pose proof (no_shared_each single_init res (p_items (pipes g q)) 0 g) as Z.
    destruct (each single_init res 0 (p_items (pipes g q)) g) as [[g1 es] b]. cbn [fst snd] in *. split; [|right; intros q' x ok; destruct b; apply R]. destruct b; split; cbn; rewrite ?F.
    + intros q' Hq. destruct (Nat.eq_dec q q') as [->|Hn]; [rewrite upd_same; cbn; auto|rewrite upd_other by auto; auto].
    + destruct (Nat.eq_dec q p) as [->|Hn]; [rewrite upd_same; cbn; auto|]. rewrite upd_other by auto. rewrite Z by auto. exact H2.
    + intros q' Hq. auto.
    + destruct (Nat.eq_dec q p) as [->|Hn]; [rewrite Gi; discriminate|]. rewrite Z by auto. exact H2.
  - destruct (p_dead (pipes g q) || negb (p_init (pipes g q))) eqn:G; [exact N|]. cbn [fst snd]. split; [split; assumption|]. apply orb_false_iff in G. destruct G as [_ Gi]. apply negb_false_iff in Gi.
    destruct (flag g) eqn:Ef; [left; reflexivity|right]. intros q' x ok Hi. apply run_events_shared in Hi. destruct (Nat.eq_dec q p) as [->|Hn]; [specialize (H2 Gi Hi); discriminate|exact (H1 q Hn Hi)].
  - destruct (p_dead (pipes g q) || negb (p_init (pipes g q))) eqn:G; [exact N|].
    pose proof (each_frame single_destroy single_destroy_frame res (p_items (pipes g q)) 0 g) as [_ [_ F]].
    pose proof (each_good single_destroy single_destroy_good res (p_items (pipes g q)) 0 g) as [_ [_ R]]. pose proof (no_shared_each single_destroy res (p_items (pipes g q)) 0 g) as Z.
    pose proof (each_all_ok single_destroy res Ho ltac:(intros g0; unfold single_destroy; destruct (negb (flag g0)); reflexivity) (p_items (pipes g q)) 0 g) as OK.
    destruct (each single_destroy res 0 (p_items (pipes g q)) g) as [[g1 es] b]. cbn [fst snd] in *. subst b. cbn [fst snd]. split; [|right; exact R]. split; cbn; rewrite F.
    + intros q' Hq. destruct (Nat.eq_dec q q') as [->|Hn]; [rewrite upd_same; cbn; auto|rewrite upd_other by auto; auto].
    + destruct (Nat.eq_dec q p) as [->|Hn]; [rewrite upd_same; cbn; discriminate|]. rewrite upd_other by auto. rewrite Z by auto. exact H2.
  - cbn. split; [|right; intros ? ? ? []]. split; cbn.
    + intros q' Hq. destruct (Nat.eq_dec q q') as [->|Hn]; [rewrite upd_same; cbn; auto|rewrite upd_other by auto; auto].
    + destruct (Nat.eq_dec q p) as [->|Hn]; [rewrite upd_same; cbn; auto|]. rewrite upd_other by auto. exact H2.
Qed.
Lemma run_or_not g o q x ok : In (ERun q x ok) (snd (fst (step g o))) -> forall a b, snd (fst (step g o)) = a ++ ERun q x ok :: b -> alive_from (flag g) a = flag g.
Proof.
  intros Hi a b E. destruct o as [p' k nm|p' k|p' res|p'|p' res|p']; cbn [step] in *.
  - destruct (p_dead (pipes g p') || p_init (pipes g p')); destruct Hi.
  - destruct (p_dead (pipes g p') || p_init (pipes g p')); destruct Hi.
  - destruct (p_dead (pipes g p') || p_init (pipes g p')); [destruct Hi|]. pose proof (each_good single_init single_init_good res (p_items (pipes g p')) 0 g) as [_ [_ R]].
    destruct (each single_init res 0 (p_items (pipes g p')) g) as [[g1 es] b']. destruct (R _ _ _ Hi).
  - destruct (p_dead (pipes g p') || negb (p_init (pipes g p'))); [destruct Hi|]. cbn [fst snd] in E. exact (run_events_prefix _ _ _ _ _ E _).
  - destruct (p_dead (pipes g p') || negb (p_init (pipes g p'))); [destruct Hi|]. pose proof (each_good single_destroy single_destroy_good res (p_items (pipes g p')) 0 g) as [_ [_ R]].
    destruct (each single_destroy res 0 (p_items (pipes g p')) g) as [[g1 es] b']. destruct (R _ _ _ Hi).
  - destruct Hi.
Qed.
Lemma play_one : forall h g, one_inv g -> (forall o, In o h -> one_op o) -> forall a b q x ok, snd (play g h) = a ++ ERun q x ok :: b -> alive_from (flag g) a = true.
Proof.
  induction h as [|o h IH]; intros g Hg Ho a b q x ok; cbn [play]; [destruct a; discriminate|].
  pose proof (step_one g o Hg (Ho o (or_introl eq_refl))) as [H1 H2]. pose proof (step_good g o) as [_ H3]. pose proof (run_or_not g o) as H4.
  destruct (step g o) as [[g1 e1] b1]. cbn [fst snd] in *. specialize (IH g1 H1 (fun o H => Ho o (or_intror H))). destruct (play g1 h) as [g2 e2]. cbn [fst snd] in *. intros E.
  destruct (cut_app _ _ _ _ _ E) as [[c' [-> _]]|[a' [-> ->]]].
  - assert (Hi : In (ERun q x ok) (a ++ ERun q x ok :: c')) by (apply in_or_app; right; left; reflexivity). rewrite (H4 q x ok Hi a c' eq_refl). destruct H2 as [H2|H2]; [exact H2|destruct (H2 _ _ _ Hi)].
  - rewrite alive_from_app, H3. exact (IH a' b q x ok eq_refl).
Qed.
End One.
Theorem C48_one_pipeline_partial : forall p h, (forall q k nm, In (OReg q k nm) h -> q = p) -> (forall q res k, In (ODestroy q res) h -> res k = true) -> runs_alive (calls h).
Proof.
  intros p h H1 H2 a b q x ok E. apply (play_one p h start) with (b := b) (q := q) (x := x) (ok := ok); [|intros o Ho; destruct o; cbn; eauto|exact E].
  split; cbn; [auto|discriminate].
Qed.

(** * Where it is false *)
Lemma destroy_clears res : (forall k, res k = true) -> forall l k g, In Shared l -> flag (fst (fst (each single_destroy res k l g))) = false.
Proof.
  intros Hr.
  assert (Z : forall l k g, flag g = false -> flag (fst (fst (each single_destroy res k l g))) = false).
  { induction l as [|i l IH]; intros k g H; cbn [each]; [exact H|]. destruct i; rewrite Hr; [apply IH; exact H|]. unfold single_destroy at 1. rewrite H. cbn [negb]. specialize (IH (S k) g H). destruct (each single_destroy res (S k) l g) as [[? ?] ?]. exact IH. }
  induction l as [|i l IH]; intros k g Hi; [destruct Hi|]. cbn [each]. destruct i; rewrite Hr.
  - destruct Hi as [Hi|Hi]; [discriminate|]. apply IH; exact Hi.
  - unfold single_destroy at 1. destruct (flag g) eqn:F; cbn [negb].
    + set (g1 := mkG _ _ _ _). pose proof (Z l (S k) g1 eq_refl) as K. destruct (each single_destroy res (S k) l g1) as [[? ?] ?]. exact K.
    + pose proof (Z l (S k) g F) as K. destruct (each single_destroy res (S k) l g) as [[? ?] ?]. exact K.
Qed.
(** Two pipelines share the object and both are initialised: the first destroy takes it from the other, whose run is not refused and executes the destroyed object. In every such history. *)
Theorem C48_second_pipeline_refuted : forall h p q res, p <> q ->
  p_init (pipes (after h) p) = true -> p_dead (pipes (after h) p) = false -> In Shared (p_items (pipes (after h) p)) ->
  p_init (pipes (after h) q) = true -> p_dead (pipes (after h) q) = false -> In Shared (p_items (pipes (after h) q)) -> (forall k, res k = true) ->
  returns h (ODestroy p res) true /\ returns (h ++ [ODestroy p res]) (ORun q) true /\
  exists a b o ok, calls (h ++ [ODestroy p res] ++ [ORun q]) = a ++ ERun q o ok :: b /\ alive a = false.
Proof.
  intros h p q res Hpq Ip Dp Sp Iq Dq Sq Hr.
  pose proof (each_all_ok single_destroy res Hr ltac:(intros g0; unfold single_destroy; destruct (negb (flag g0)); reflexivity) (p_items (pipes (after h) p)) 0 (after h)) as OK.
  pose proof (destroy_clears res Hr (p_items (pipes (after h) p)) 0 (after h) Sp) as F.
  pose proof (step_pipe (after h) (ODestroy p res) q Hpq) as P.
  assert (R1 : returns h (ODestroy p res) true).
  { unfold returns. cbn [step]. rewrite Ip, Dp. cbn [orb negb]. destruct (each single_destroy res 0 (p_items (pipes (after h) p)) (after h)) as [[g1 es] b]. exact OK. }
  assert (Eg : after (h ++ [ODestroy p res]) = fst (fst (step (after h) (ODestroy p res)))).
  { rewrite after_app. cbn [play]. destruct (step (after h) (ODestroy p res)) as [[g1 e1] b1]. reflexivity. }
  assert (Fg : flag (after (h ++ [ODestroy p res])) = false).
  { rewrite Eg. cbn [step]. rewrite Ip, Dp. cbn [orb negb]. destruct (each single_destroy res 0 (p_items (pipes (after h) p)) (after h)) as [[g1 es] b]. cbn in *. destruct b; exact F. }
  rewrite <- Eg in P. split; [exact R1|]. split; [unfold returns; cbn [step]; rewrite P, Iq, Dq; reflexivity|].
  rewrite app_assoc, calls_app, run_shape, P, Iq, Dq. cbn [orb negb].
  assert (K : exists c d o ok, run_events (after (h ++ [ODestroy p res])) q = c ++ ERun q o ok :: d).
  { unfold run_events. rewrite P. apply in_split in Sq. destruct Sq as [l1 [l2 ->]]. rewrite flat_map_app. cbn [flat_map app]. eauto. }
  destruct K as [c [d [o [ok K]]]]. rewrite K, app_assoc. exists (calls (h ++ [ODestroy p res]) ++ c), d, o, ok. split; [reflexivity|].
  unfold alive. rewrite alive_from_app, (run_events_prefix _ _ _ _ _ K). fold (alive (calls (h ++ [ODestroy p res]))). rewrite <- flag_alive. exact Fg.
Qed.
(** One pipeline, and a later element whose destroy fails: the pipeline can still be run, and then executes the destroyed object. *)
Theorem C48_failed_destroy_refuted : exists h a b o ok, calls h = a ++ ERun 0 o ok :: b /\ alive a = false.
Proof.
  exists [OReg 0 0 7; OPlain 0 1; OInit 0 (fun _ => true); ODestroy 0 (fun k => negb (k =? 1)); ORun 0], [EInit true; EDestroy true], [], (Some 0), true. split; reflexivity.
Qed.
(** A later element whose init fails: the object has been initialised, and no destroy can be made. *)
Theorem C48_failed_init_refuted : exists h, alive (calls h) = true /\ forall p res, p_init (pipes (after h) p) = false /\ returns h (ODestroy p res) false.
Proof.
  exists [OReg 0 0 7; OPlain 0 1; OInit 0 (fun k => negb (k =? 1))]. split; [reflexivity|]. intros p res.
  assert (K : p_init (pipes (after [OReg 0 0 7; OPlain 0 1; OInit 0 (fun k => negb (k =? 1))]) p) = false).
  { unfold after. cbn. unfold upd. cbn. destruct (p =? 0); reflexivity. }
  split; [exact K|]. unfold returns. cbn [step]. rewrite K, orb_true_r. reflexivity.
Qed.
(** Any number of pipelines initialised at the same time may each call the object's init. *)
Definition iplay (s : ist) (l : list nat) : ist := fold_left istep l s.
Lemma iplay_start : forall n s, i_flag s = false -> (forall t, t < n -> i_pc s t = IStart) ->
  let s' := iplay s (seq 0 n) in i_flag s' = false /\ i_calls s' = i_calls s /\ (forall t, t < n -> i_pc s' t = ICall) /\ forall t, n <= t -> i_pc s' t = i_pc s t.
Proof.
  induction n as [|n IH]; intros s Hf Hs; cbn zeta; [cbn; repeat split; auto; lia|]. rewrite seq_S. unfold iplay. rewrite fold_left_app. cbn [fold_left Nat.add]. fold (iplay s (seq 0 n)).
  destruct (IH s Hf (fun t Ht => Hs t (Nat.lt_lt_succ_r _ _ Ht))) as [I1 [I2 [I3 I4]]]. unfold istep. rewrite (I4 n (le_n n)), (Hs n (Nat.lt_succ_diag_r n)), I1. cbn. split; [reflexivity|]. split; [exact I2|].
  split; intros t Ht.
  - destruct (Nat.eq_dec n t) as [->|Hn]; [rewrite upd_same; reflexivity|rewrite upd_other by auto; apply I3; lia].
  - rewrite upd_other by lia. apply I4. lia.
Qed.
Lemma iplay_call : forall n s, (forall t, t < n -> i_pc s t = ICall) ->
  let s' := iplay s (seq 0 n) in i_calls s' = n + i_calls s /\ forall t, n <= t -> i_pc s' t = i_pc s t.
Proof.
  induction n as [|n IH]; intros s Hs; cbn zeta; [cbn; auto|]. rewrite seq_S. unfold iplay. rewrite fold_left_app. cbn [fold_left Nat.add]. fold (iplay s (seq 0 n)).
  destruct (IH s (fun t Ht => Hs t (Nat.lt_lt_succ_r _ _ Ht))) as [I1 I2]. unfold istep. rewrite (I2 n (le_n n)), (Hs n (Nat.lt_succ_diag_r n)). cbn. split; [lia|]. intros t Ht. rewrite upd_other by lia. apply I2; lia.
Qed.
Theorem C48_concurrent_init_refuted : forall n, exists schedule, i_calls (iplay istart schedule) = n.
Proof.
  intros n. exists (seq 0 n ++ seq 0 n). unfold iplay. rewrite fold_left_app. fold (iplay istart (seq 0 n)).
  destruct (iplay_start n istart eq_refl (fun _ _ => eq_refl)) as [_ [H1 [H2 _]]]. destruct (iplay_call n _ H2) as [H3 _]. unfold iplay in *. rewrite H3, H1. cbn. lia.
Qed.

(** Once one init has come back, a pipeline that is initialised after that does not call the object's init again. *)
Theorem C48_later_init_partial : forall schedule t t' n, let s := iplay istart schedule in
  i_pc s t = IDone -> i_pc s t' = IStart -> i_calls (iplay s (repeat t' n)) = i_calls s.
Proof.
  intros l t t' n s Ht Hn.
  assert (F : i_flag s = true).
  { revert Ht. unfold s. assert (G : forall l s0, (forall t, i_pc s0 t = IDone -> i_flag s0 = true) -> forall t, i_pc (iplay s0 l) t = IDone -> i_flag (iplay s0 l) = true).
    { clear. induction l as [|x l IH]; intros s0 H t; cbn [iplay fold_left]; [apply H|]. apply (IH (istep s0 x)). clear IH. intros y. unfold istep.
      destruct (i_pc s0 x) eqn:E; cbn [i_pc i_flag]; try (exact (H y));
        (destruct (Nat.eq_dec x y) as [->|N]; [rewrite upd_same|rewrite upd_other by auto; try (exact (H y))]); try discriminate; try reflexivity.
      destruct (i_flag s0); [reflexivity|discriminate]. }
    apply G. cbn. discriminate. }
  assert (K : forall n s0, i_flag s0 = true -> (i_pc s0 t' = IStart \/ i_pc s0 t' = IDone) -> i_calls (iplay s0 (repeat t' n)) = i_calls s0).
  { clear. induction n as [|n IH]; intros s0 F P; [reflexivity|]. cbn [repeat iplay fold_left]. change (fold_left istep (repeat t' n) (istep s0 t')) with (iplay (istep s0 t') (repeat t' n)).
    destruct P as [P|P]; unfold istep; rewrite P.
    - rewrite IH; cbn [i_flag i_pc i_calls]; auto. right. rewrite upd_same, F. reflexivity.
    - apply IH; auto. }
  apply K; auto.
Qed.

(** * C83: whose parameters *)
Lemma owner_step g o : owner (fst (fst (step g o))) = owner g \/ exists p k nm, o = OReg p k nm /\ owner (fst (fst (step g o))) = Some p.
Proof.
  destruct o as [q k nm|q k|q res|q|q res|q]; cbn [step].
  - destruct (p_dead (pipes g q) || p_init (pipes g q)); [left; reflexivity|right; exists q, k, nm; auto].
  - destruct (p_dead (pipes g q) || p_init (pipes g q)); left; reflexivity.
  - destruct (p_dead (pipes g q) || p_init (pipes g q)); [left; reflexivity|]. pose proof (each_frame single_init single_init_frame res (p_items (pipes g q)) 0 g) as [F _].
    destruct (each single_init res 0 (p_items (pipes g q)) g) as [[g1 es] b]. destruct b; left; exact F.
  - destruct (p_dead (pipes g q) || negb (p_init (pipes g q))); left; reflexivity.
  - destruct (p_dead (pipes g q) || negb (p_init (pipes g q))); [left; reflexivity|]. pose proof (each_frame single_destroy single_destroy_frame res (p_items (pipes g q)) 0 g) as [F _].
    destruct (each single_destroy res 0 (p_items (pipes g q)) g) as [[g1 es] b]. destruct b; left; exact F.
  - left; reflexivity.
Qed.
Lemma step_run_owner g o p q ok : In (ERun p q ok) (snd (fst (step g o))) -> o = ORun p /\ q = owner g /\ In Shared (p_items (pipes g p)) /\ p_dead (pipes g p) = false.
Proof.
  destruct o as [p' k nm|p' k|p' res|p'|p' res|p']; cbn [step]; intros Hi.
  - destruct (p_dead (pipes g p') || p_init (pipes g p')); destruct Hi.
  - destruct (p_dead (pipes g p') || p_init (pipes g p')); destruct Hi.
  - destruct (p_dead (pipes g p') || p_init (pipes g p')); [destruct Hi|]. pose proof (each_good single_init single_init_good res (p_items (pipes g p')) 0 g) as [_ [_ R]].
    destruct (each single_init res 0 (p_items (pipes g p')) g) as [[g1 es] b']. destruct (R _ _ _ Hi).
  - destruct (p_dead (pipes g p') || negb (p_init (pipes g p'))) eqn:G; [destruct Hi|]. apply orb_false_iff in G. cbn [fst snd] in Hi. pose proof (run_events_shared _ _ _ Hi) as S. unfold run_events in Hi. apply in_flat_map in Hi.
    destruct Hi as [[|] [_ Hi]]; [destruct Hi|]. destruct Hi as [Hi|[]]. injection Hi as -> <- <-. do 2 (split; [reflexivity|]). split; [exact S|apply G].
  - destruct (p_dead (pipes g p') || negb (p_init (pipes g p'))); [destruct Hi|]. pose proof (each_good single_destroy single_destroy_good res (p_items (pipes g p')) 0 g) as [_ [_ R]].
    destruct (each single_destroy res 0 (p_items (pipes g p')) g) as [[g1 es] b']. destruct (R _ _ _ Hi).
  - destruct Hi.
Qed.
(** If only one pipeline ever registers the singleton, its runs use the parameters of that pipeline. *)
Theorem C83_one_pipeline_partial : forall p h, (forall q k nm, In (OReg q k nm) h -> q = p) -> forall r q ok, In (ERun r q ok) (calls h) -> r = p /\ q = Some p.
Proof.
  intros p h. unfold calls.
  assert (G : forall h g, (forall q k nm, In (OReg q k nm) h -> q = p) -> (owner g = Some p \/ owner g = None) -> (forall q, In Shared (p_items (pipes g q)) -> q = p /\ owner g = Some p) ->
    forall r q ok, In (ERun r q ok) (snd (play g h)) -> r = p /\ q = Some p).
  { clear h. induction h as [|o h IH]; intros g Hr Hg Hs r q ok; cbn [play]; [intros []|].
    pose proof (step_run_owner g o r q ok) as R. pose proof (owner_step g o) as O.
    assert (S : forall q, In Shared (p_items (pipes (fst (fst (step g o))) q)) -> q = p /\ owner (fst (fst (step g o))) = Some p).
    { intros q' Hq'. destruct O as [O|[p' [k [nm [-> O]]]]].
      - rewrite O. assert (K : In Shared (p_items (pipes g q')) \/ exists k nm, o = OReg q' k nm).
        { destruct o as [x k nm|x k|x res|x|x res|x]; (destruct (Nat.eq_dec x q') as [->|Hn]; [|rewrite step_pipe in Hq' by exact Hn; left; exact Hq']); cbn [step] in Hq'.
          - right. eauto.
          - destruct (p_dead (pipes g q') || p_init (pipes g q')); [left; exact Hq'|]. cbn in Hq'. rewrite upd_same in Hq'. cbn in Hq'. apply in_insert in Hq'. destruct Hq' as [Hq'|Hq']; [discriminate|left; exact Hq'].
          - destruct (p_dead (pipes g q') || p_init (pipes g q')); [left; exact Hq'|]. pose proof (each_frame single_init single_init_frame res (p_items (pipes g q')) 0 g) as [_ [_ F]].
            destruct (each single_init res 0 (p_items (pipes g q')) g) as [[g1 es] b]. cbn [fst snd] in *. left. destruct b; cbn in Hq'; rewrite F in Hq'; [rewrite upd_same in Hq'|]; exact Hq'.
          - destruct (p_dead (pipes g q') || negb (p_init (pipes g q'))); left; exact Hq'.
          - destruct (p_dead (pipes g q') || negb (p_init (pipes g q'))); [left; exact Hq'|]. pose proof (each_frame single_destroy single_destroy_frame res (p_items (pipes g q')) 0 g) as [_ [_ F]].
            destruct (each single_destroy res 0 (p_items (pipes g q')) g) as [[g1 es] b]. cbn [fst snd] in *. left. destruct b; cbn in Hq'; rewrite F in Hq'; [rewrite upd_same in Hq'|]; exact Hq'.
          - cbn in Hq'. rewrite upd_same in Hq'. left; exact Hq'. }
        destruct K as [K|[k [nm ->]]]; [apply Hs; exact K|]. pose proof (Hr q' k nm (or_introl eq_refl)) as ->. cbn [step] in *.
        destruct (p_dead (pipes g p) || p_init (pipes g p)); [apply Hs; exact Hq'|]. cbn in O. split; [reflexivity|]. symmetry; exact O.
      - pose proof (Hr p' k nm (or_introl eq_refl)) as ->. split; [|exact O]. destruct (Nat.eq_dec p q') as [E|Hn]; [auto|]. rewrite step_pipe in Hq' by exact Hn. apply (Hs q' Hq'). }
    assert (O' : owner (fst (fst (step g o))) = Some p \/ owner (fst (fst (step g o))) = None).
    { destruct O as [->|[p' [k [nm [-> ->]]]]]; [exact Hg|left; f_equal; apply (Hr p' k nm); left; reflexivity]. }
    destruct (step g o) as [[g1 e1] b1]. cbn [fst snd] in *. specialize (IH g1 (fun q k nm H => Hr q k nm (or_intror H)) O' S r q ok). destruct (play g1 h) as [g2 e2]. cbn [fst snd] in *.
    intros Hi. apply in_app_or in Hi. destruct Hi as [Hi|Hi]; [|exact (IH Hi)]. destruct (R Hi) as [_ [-> [Hsh _]]]. exact (Hs r Hsh). }
  intros Hr. apply G; [exact Hr|right; reflexivity|cbn; intros q []].
Qed.
(** As soon as another pipeline registers the singleton, the runs of the first one use the other's parameters, until some pipeline registers it again. *)
Theorem C83_last_registration_refuted : forall h q k nm h', returns h (OReg q k nm) true -> (forall r k' nm', ~ In (OReg r k' nm') h') ->
  forall p x ok, In (ERun p x ok) (snd (play (after (h ++ [OReg q k nm])) h')) -> x = Some q.
Proof.
  intros h q k nm h' Hr Hn p x ok.
  assert (E : owner (after (h ++ [OReg q k nm])) = Some q).
  { rewrite after_app. cbn [play]. unfold returns in Hr. cbn [step] in *. destruct (p_dead (pipes (after h) q) || p_init (pipes (after h) q)); [discriminate|reflexivity]. }
  revert E. generalize (after (h ++ [OReg q k nm])) as g. clear Hr. induction h' as [|o h' IH]; intros g E; cbn [play]; [intros []|].
  pose proof (step_run_owner g o p x ok) as R. pose proof (owner_step g o) as O. destruct (step g o) as [[g1 e1] b1]. cbn [fst snd] in *.
  assert (E' : owner g1 = Some q) by (destruct O as [->|[p' [k' [nm' [-> _]]]]]; [exact E|destruct (Hn p' k' nm' (or_introl eq_refl))]).
  specialize (IH (fun r k' nm' H => Hn r k' nm' (or_intror H)) g1 E'). destruct (play g1 h') as [g2 e2]. cbn [fst snd] in *. intros Hi. apply in_app_or in Hi. destruct Hi as [Hi|Hi]; [|exact (IH Hi)].
  destruct (R Hi) as [_ [-> _]]. exact E.
Qed.
(** If that pipeline is deleted, the next run of the first one uses managers that no longer exist. *)
Theorem C83_deleted_refuted : exists h, In (ERun 0 (Some 1) false) (calls h) /\ returns h (ORun 0) true.
Proof.
  exists [OReg 0 0 7; OReg 1 0 8; OInit 0 (fun _ => true); ODelete 1; ORun 0]. split; [right; left; reflexivity|reflexivity].
Qed.

(** * C84: the lazily created object *)
Definition holds (x : upc) : bool := match x with UCheck2 | UCreate | UUnlock => true | _ => false end.
Record uinv (s : ust) : Prop := {
  ui_lock : forall t, holds (u_pc s t) = true -> u_lock s = Some t;
  ui_lock2 : forall t, u_lock s = Some t -> holds (u_pc s t) = true;
  ui_made : u_handle s = (if u_made s =? 0 then None else Some 0);
  ui_le : u_made s <= 1;
  ui_create : forall t, u_pc s t = UCreate -> u_made s = 0;
  ui_done : forall t, (u_pc s t = URead \/ u_pc s t = UUnlock -> u_made s = 1) ;
  ui_val : forall t p, u_pc s t = UDone p -> p = Some 0 }.
Lemma uinv_start : uinv ustart.
Proof. constructor; cbn; try discriminate; auto. intros t [H|H]; discriminate. Qed.
Lemma uinv_step s t s' : uinv s -> ustep s t = Some s' -> uinv s'.
Proof.
  intros [L L2 M LE C D V] H. unfold ustep in H. destruct (u_pc s t) eqn:E.
  1-6: injection H as <- || (destruct (is_none (u_lock s)) eqn:EL; [|discriminate]; injection H as <-).
  - (* UCheck *)
    constructor; cbn [u_lock u_pc u_handle u_made]; auto.
    + intros x Hx. destruct (Nat.eq_dec t x) as [->|N]; [rewrite upd_same in Hx; destruct (is_none (u_handle s)); discriminate|rewrite upd_other in Hx by auto; auto].
    + intros x Hx. destruct (Nat.eq_dec t x) as [->|N]; [specialize (L2 x Hx); rewrite E in L2; discriminate|rewrite upd_other by auto; auto].
    + intros x Hx. destruct (Nat.eq_dec t x) as [->|N]; [rewrite upd_same in Hx; destruct (is_none (u_handle s)); discriminate|rewrite upd_other in Hx by auto; exact (C x Hx)].
    + intros x Hx. destruct (Nat.eq_dec t x) as [->|N]; [|rewrite upd_other in Hx by auto; exact (D x Hx)]. rewrite upd_same in Hx. rewrite M in Hx. destruct (Nat.eqb_spec (u_made s) 0); [cbn in Hx; destruct Hx; discriminate|lia].
    + intros x p Hx. destruct (Nat.eq_dec t x) as [->|N]; [rewrite upd_same in Hx; destruct (is_none (u_handle s)); discriminate|rewrite upd_other in Hx by auto; exact (V x p Hx)].
  - (* ULock *)
    assert (Lk : u_lock s = None) by (destruct (u_lock s); [discriminate|reflexivity]).
    constructor; cbn [u_lock u_pc u_handle u_made]; auto.
    + intros x Hx. destruct (Nat.eq_dec t x) as [->|N]; [reflexivity|rewrite upd_other in Hx by auto; specialize (L x Hx); congruence].
    + intros x Hx. injection Hx as <-. rewrite upd_same. reflexivity.
    + intros x Hx. destruct (Nat.eq_dec t x) as [->|N]; [rewrite upd_same in Hx; discriminate|rewrite upd_other in Hx by auto; exact (C x Hx)].
    + intros x Hx. destruct (Nat.eq_dec t x) as [->|N]; [rewrite upd_same in Hx; destruct Hx; discriminate|rewrite upd_other in Hx by auto; exact (D x Hx)].
    + intros x p Hx. destruct (Nat.eq_dec t x) as [->|N]; [rewrite upd_same in Hx; discriminate|rewrite upd_other in Hx by auto; exact (V x p Hx)].
  - (* UCheck2 *)
    constructor; cbn [u_lock u_pc u_handle u_made]; auto.
    + intros x Hx. destruct (Nat.eq_dec t x) as [->|N]; [apply L; rewrite E; reflexivity|rewrite upd_other in Hx by auto; auto].
    + intros x Hx. destruct (Nat.eq_dec t x) as [->|N]; [rewrite upd_same; destruct (is_none (u_handle s)); reflexivity|rewrite upd_other by auto; auto].
    + intros x Hx. destruct (Nat.eq_dec t x) as [->|N]; [|rewrite upd_other in Hx by auto; exact (C x Hx)]. rewrite upd_same, M in Hx. destruct (Nat.eqb_spec (u_made s) 0); [assumption|discriminate].
    + intros x Hx. destruct (Nat.eq_dec t x) as [->|N]; [|rewrite upd_other in Hx by auto; exact (D x Hx)]. rewrite upd_same, M in Hx. destruct (Nat.eqb_spec (u_made s) 0); [cbn in Hx; destruct Hx; discriminate|lia].
    + intros x p Hx. destruct (Nat.eq_dec t x) as [->|N]; [rewrite upd_same in Hx; destruct (is_none (u_handle s)); discriminate|rewrite upd_other in Hx by auto; exact (V x p Hx)].
  - (* UCreate *)
    pose proof (C t E) as Z. constructor; cbn [u_lock u_pc u_handle u_made].
    + intros x Hx. destruct (Nat.eq_dec t x) as [->|N]; [apply L; rewrite E; reflexivity|rewrite upd_other in Hx by auto; auto].
    + intros x Hx. destruct (Nat.eq_dec t x) as [->|N]; [rewrite upd_same; reflexivity|rewrite upd_other by auto; auto].
    + rewrite Z. reflexivity.
    + lia.
    + intros x Hx. exfalso. destruct (Nat.eq_dec t x) as [->|N]; [rewrite upd_same in Hx; discriminate|]. rewrite upd_other in Hx by auto. pose proof (L x ltac:(rewrite Hx; reflexivity)). pose proof (L t ltac:(rewrite E; reflexivity)). congruence.
    + intros x Hx. lia.
    + intros x p Hx. destruct (Nat.eq_dec t x) as [->|N]; [rewrite upd_same in Hx; discriminate|rewrite upd_other in Hx by auto; exact (V x p Hx)].
  - (* UUnlock *)
    pose proof (L t ltac:(rewrite E; reflexivity)) as Lt. pose proof (D t (or_intror E)) as Dt. constructor; cbn [u_lock u_pc u_handle u_made]; auto.
    + intros x Hx. destruct (Nat.eq_dec t x) as [->|N]; [rewrite upd_same in Hx; discriminate|rewrite upd_other in Hx by auto; specialize (L x Hx); congruence].
    + discriminate.
    + intros x Hx. destruct (Nat.eq_dec t x) as [->|N]; [rewrite upd_same in Hx; discriminate|rewrite upd_other in Hx by auto; exact (C x Hx)].
    + intros x p Hx. destruct (Nat.eq_dec t x) as [->|N]; [rewrite upd_same in Hx; discriminate|rewrite upd_other in Hx by auto; exact (V x p Hx)].
  - (* URead *)
    pose proof (D t (or_introl E)) as Dt. constructor; cbn [u_lock u_pc u_handle u_made]; auto.
    + intros x Hx. destruct (Nat.eq_dec t x) as [->|N]; [rewrite upd_same in Hx; discriminate|rewrite upd_other in Hx by auto; auto].
    + intros x Hx. destruct (Nat.eq_dec t x) as [->|N]; [specialize (L2 x Hx); rewrite E in L2; discriminate|rewrite upd_other by auto; auto].
    + intros x Hx. destruct (Nat.eq_dec t x) as [->|N]; [rewrite upd_same in Hx; discriminate|rewrite upd_other in Hx by auto; exact (C x Hx)].
    + intros x p Hx. destruct (Nat.eq_dec t x) as [->|N]; [rewrite upd_same in Hx; injection Hx as <-; rewrite M, Dt; reflexivity|rewrite upd_other in Hx by auto; exact (V x p Hx)].
  - discriminate.
Qed.
Lemma uinv_play l : forall s s', uinv s -> uplay s l = Some s' -> uinv s'.
Proof.
  induction l as [|t l IH]; intros s s' H; cbn [uplay]; [intros E; injection E as <-; exact H|]. destruct (ustep s t) as [s1|] eqn:E; [|discriminate]. apply IH. exact (uinv_step s t s1 H E).
Qed.
(** Whatever the interleaving, the object is created at most once and every get() returns that one. *)
Theorem C84_created_once_partial : forall l s, uplay ustart l = Some s -> u_made s <= 1 /\ forall t p, u_pc s t = UDone p -> p = Some 0 /\ u_made s = 1.
Proof.
  intros l s H. pose proof (uinv_play l _ _ uinv_start H) as [L L2 M LE C D V]. split; [exact LE|].
  assert (G : forall l s s', (forall t p, u_pc s t = UDone p -> u_handle s <> None) -> (forall t, u_pc s t = URead \/ u_pc s t = UUnlock -> True) -> uinv s -> uplay s l = Some s' -> forall t p, u_pc s' t = UDone p -> u_handle s' <> None).
  { clear. induction l as [|t l IH]; intros s s' Hd _ Hi; cbn [uplay]; [intros E; injection E as <-; exact Hd|]. destruct (ustep s t) as [s1|] eqn:E; [|discriminate]. pose proof (uinv_step s t s1 Hi E) as Hi1.
    apply (IH s1 s'); [|auto|exact Hi1]. destruct Hi as [L L2 M LE C D V]. unfold ustep in E. intros x p Hx. destruct (u_pc s t) eqn:Et; try (injection E as <-); try discriminate; cbn [u_pc u_handle] in *.
    - destruct (Nat.eq_dec t x) as [->|N]; [rewrite upd_same in Hx; destruct (is_none (u_handle s)); discriminate|rewrite upd_other in Hx by auto; exact (Hd x p Hx)].
    - destruct (is_none (u_lock s)); [|discriminate]. injection E as <-. cbn [u_pc u_handle] in *. destruct (Nat.eq_dec t x) as [->|N]; [rewrite upd_same in Hx; discriminate|rewrite upd_other in Hx by auto; exact (Hd x p Hx)].
    - destruct (Nat.eq_dec t x) as [->|N]; [rewrite upd_same in Hx; destruct (is_none (u_handle s)); discriminate|rewrite upd_other in Hx by auto; exact (Hd x p Hx)].
    - destruct (Nat.eq_dec t x) as [->|N]; [rewrite upd_same in Hx; discriminate|rewrite upd_other in Hx by auto; exact (Hd x p Hx)].
    - rewrite M, (D t (or_introl Et)). discriminate. }
  intros t p Hp. split; [exact (V t p Hp)|]. assert (K : u_handle s <> None) by (apply (G l ustart s (fun t p H => ltac:(discriminate)) (fun _ _ => I) uinv_start H t p Hp)).
  rewrite M in K. destruct (Nat.eqb_spec (u_made s) 0); [contradiction|lia].
Qed.
(** No deadlock: while some caller has not returned, some caller can go on. *)
Theorem C84_progress : forall l s t, uplay ustart l = Some s -> (forall p, u_pc s t <> UDone p) -> exists t' s', ustep s t' = Some s'.
Proof.
  intros l s t H Hn. pose proof (uinv_play l _ _ uinv_start H) as [_ L2 _ _ _ _ _].
  destruct (u_lock s) as [k|] eqn:E.
  - exists k. specialize (L2 k eq_refl). unfold ustep. destruct (u_pc s k); try discriminate; eauto.
  - exists t. unfold ustep. destruct (u_pc s t); try rewrite E; cbn; eauto. exfalso. exact (Hn p eq_refl).
Qed.
(** The first check reads the pointer without the lock, which another thread may be writing: two accesses that nothing orders, one of them a write, to a plain pointer. *)
Theorem C84_race_refuted : exists l s t t', uplay ustart l = Some s /\ t <> t' /\ u_pc s t = UCreate /\ u_lock s = Some t /\ u_pc s t' = UCheck.
Proof.
  exists [0; 0; 0]. destruct (uplay ustart [0; 0; 0]) as [s|] eqn:E; [|discriminate]. exists s, 0, 1. vm_compute in E. injection E as <-. cbn. repeat split; auto; discriminate.
Qed.

(** * Examples *)
Definition ok_all : nat -> bool := fun _ => true.
(** One pipeline, three shared elements and another one, two cycles. *)
Definition xh : list op := [OReg 0 0 7; OPlain 0 0; OReg 0 2 7; OReg 0 0 8; OInit 0 ok_all; ORun 0; ODestroy 0 ok_all; OInit 0 ok_all; ORun 0; ODestroy 0 ok_all].
Example C48_one_ex : calls xh = [EInit true; ERun 0 (Some 0) true; ERun 0 (Some 0) true; ERun 0 (Some 0) true; EDestroy true; EInit true; ERun 0 (Some 0) true; ERun 0 (Some 0) true; ERun 0 (Some 0) true; EDestroy true] /\
  (forall q k nm, In (OReg q k nm) xh -> q = 0) /\ (forall q res k, In (ODestroy q res) xh -> res k = true).
Proof.
  split; [reflexivity|]. split; intros a b c H; cbn in H; repeat (destruct H as [H|H]; [try discriminate; injection H; intros; subst; reflexivity|]); destruct H.
Qed.
(** Two pipelines: the hypotheses of the refutation, and what happens. *)
Definition xh2 : list op := [OReg 0 0 7; OReg 1 0 8; OInit 0 ok_all; OInit 1 ok_all].
Example C48_two_ex : p_init (pipes (after xh2) 0) = true /\ p_dead (pipes (after xh2) 0) = false /\ In Shared (p_items (pipes (after xh2) 0)) /\
  p_init (pipes (after xh2) 1) = true /\ p_dead (pipes (after xh2) 1) = false /\ In Shared (p_items (pipes (after xh2) 1)) /\
  calls (xh2 ++ [ORun 0; ODestroy 0 ok_all; ORun 1]) = [EInit true; ERun 0 (Some 1) true; EDestroy true; ERun 1 (Some 1) true].
Proof. cbn. repeat split; auto. Qed.
Example C48_run_alive_ex : returns [OReg 0 0 7; OReg 1 0 8; OInit 1 ok_all] (OInit 0 ok_all) true /\ no_destroy [ORun 1; ORun 0] /\
  calls ([OReg 0 0 7; OReg 1 0 8; OInit 1 ok_all; OInit 0 ok_all; ORun 1] ++ [ORun 0]) = [EInit true; ERun 1 (Some 1) true; ERun 0 (Some 1) true].
Proof. split; [reflexivity|]. split; [|reflexivity]. intros p res [H|[H|[]]]; discriminate. Qed.
(** Three threads, the second waits for the lock. *)
Example C84_ex : match uplay ustart [0; 1; 0; 2; 0; 0; 0; 1; 1; 1; 0; 2; 1; 2; 2; 2] with Some s => u_made s = 1 /\ u_pc s 0 = UDone (Some 0) /\ u_pc s 1 = UDone (Some 0) /\ u_pc s 2 = UDone (Some 0) | None => False end.
Proof. vm_compute. repeat split. Qed.

Print Assumptions C48_alternate_partial.
Print Assumptions C48_run_alive_partial.
Print Assumptions C48_one_pipeline_partial.
Print Assumptions C48_second_pipeline_refuted.
Print Assumptions C48_failed_destroy_refuted.
Print Assumptions C48_failed_init_refuted.
Print Assumptions C48_concurrent_init_refuted.
Print Assumptions C83_one_pipeline_partial.
Print Assumptions C83_last_registration_refuted.
Print Assumptions C83_deleted_refuted.
Print Assumptions C84_created_once_partial.
Print Assumptions C84_progress.
Print Assumptions C84_race_refuted.
Print Assumptions C48_later_init_partial.
Example C48_later_nonvacuous : i_pc (iplay istart [0; 2; 2; 0; 0]) 0 = IDone /\ i_pc (iplay istart [0; 2; 2; 0; 0]) 1 = IStart /\ i_calls (iplay istart [0; 2; 2; 0; 0]) = 2.
Proof. vm_compute. auto. Qed.
