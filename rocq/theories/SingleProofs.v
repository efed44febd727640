(** The shared object: its flag is its life. *)
From Verif Require Import SingleModel SingleSpec.
Local Open Scope nat_scope.
Local Open Scope list_scope.

Lemma alive_from_app b a c : alive_from b (a ++ c) = alive_from (alive_from b a) c.
Proof. revert b. induction a as [|e a IH]; intros b; [reflexivity|]. cbn [app alive_from]. destruct e as [[|]|? ? ?|[|]]; apply IH. Qed.
Lemma play_app g h k : play g (h ++ k) = (fst (play (fst (play g h)) k), snd (play g h) ++ snd (play (fst (play g h)) k)).
Proof.
  revert g. induction h as [|o h IH]; intros g; cbn [app play]; [cbn [fst snd app]; destruct (play g k); reflexivity|].
  destruct (step g o) as [[g1 e1] b]. rewrite IH. destruct (play g1 h) as [g2 e2]. cbn [fst snd]. rewrite app_assoc. reflexivity.
Qed.
Lemma after_app h k : after (h ++ k) = fst (play (after h) k).
Proof. unfold after. rewrite play_app. reflexivity. Qed.
Lemma calls_app h k : calls (h ++ k) = calls h ++ snd (play (after h) k).
Proof. unfold calls, after. rewrite play_app. reflexivity. Qed.

(** The flag follows the calls, which respect it. *)
Definition seq_ok (b : bool) (tr : list ev) : Prop :=
  (forall a c ok, tr = a ++ EInit ok :: c -> alive_from b a = false) /\ (forall a c ok, tr = a ++ EDestroy ok :: c -> alive_from b a = true).
Lemma seq_ok_nil b : seq_ok b [].
Proof. split; intros [|? ?] ? ? H; discriminate. Qed.
Lemma cut_app {A} (x : A) : forall a l m c, l ++ m = a ++ x :: c -> (exists c', l = a ++ x :: c' /\ c = c' ++ m) \/ exists a', a = l ++ a' /\ m = a' ++ x :: c.
Proof.
  induction a as [|y a IH]; intros l m c H.
  - destruct l as [|z l]; [right; exists []; auto|]. cbn in H. injection H as -> <-. left. exists l. auto.
  - destruct l as [|z l]; [right; exists (y :: a); auto|]. cbn in H. injection H as -> H. destruct (IH l m c H) as [[c' [-> ->]]|[a' [-> ->]]]; [left; exists c'; auto|right; exists a'; auto].
Qed.
Lemma seq_ok_app b l m : seq_ok b l -> seq_ok (alive_from b l) m -> seq_ok b (l ++ m).
Proof.
  intros [H1 H2] [H3 H4]. split; intros a c ok E; destruct (cut_app _ _ _ _ _ E) as [[c' [-> _]]|[a' [-> ->]]]; rewrite ?alive_from_app; eauto.
Qed.
Lemma seq_ok_one_init ok : seq_ok false [EInit ok].
Proof. split; intros [|? [|? ?]] c ok' E; try discriminate. reflexivity. Qed.
Lemma seq_ok_one_destroy ok : seq_ok true [EDestroy ok].
Proof. split; intros [|? [|? ?]] c ok' E; try discriminate. reflexivity. Qed.

Definition good (g g' : gst) (es : list ev) : Prop :=
  seq_ok (flag g) es /\ alive_from (flag g) es = flag g' /\ (forall p q ok, ~ In (ERun p q ok) es).
Lemma single_init_good g ok : good g (fst (fst (single_init g ok))) (snd (fst (single_init g ok))).
Proof.
  unfold single_init. destruct (flag g) eqn:F; cbn [fst snd].
  - split; [apply seq_ok_nil|]. split; [rewrite F; reflexivity|intros ? ? ? []].
  - split; [rewrite F; apply seq_ok_one_init|]. rewrite F. split; [destruct ok; reflexivity|]. intros ? ? ? [H|[]]; discriminate.
Qed.
Lemma single_destroy_good g ok : good g (fst (fst (single_destroy g ok))) (snd (fst (single_destroy g ok))).
Proof.
  unfold single_destroy. destruct (flag g) eqn:F; cbn [negb fst snd].
  - split; [rewrite F; apply seq_ok_one_destroy|]. rewrite F. split; [destruct ok; reflexivity|]. intros ? ? ? [H|[]]; discriminate.
  - split; [apply seq_ok_nil|]. split; [rewrite F; reflexivity|intros ? ? ? []].
Qed.
Section E.
Variable f : gst -> bool -> gst * list ev * bool.
Hypothesis Hf : forall g ok, good g (fst (fst (f g ok))) (snd (fst (f g ok))).
Lemma each_good res : forall l k g, good g (fst (fst (each f res k l g))) (snd (fst (each f res k l g))).
Proof.
  induction l as [|i l IH]; intros k g; cbn [each].
  - cbn. split; [apply seq_ok_nil|]. split; [reflexivity|intros ? ? ? []].
  - destruct i.
    + destruct (res k); [apply IH|]. cbn. split; [apply seq_ok_nil|]. split; [reflexivity|intros ? ? ? []].
    + pose proof (Hf g (res k)) as H. destruct (f g (res k)) as [[g1 e1] b1]. cbn [fst snd] in H. destruct b1; [|exact H].
      specialize (IH (S k) g1). destruct (each f res (S k) l g1) as [[g2 e2] b2]. cbn [fst snd] in *. destruct H as [A1 [A2 A3]], IH as [B1 [B2 B3]].
      split; [apply seq_ok_app; [exact A1|rewrite A2; exact B1]|]. split; [rewrite alive_from_app, A2; exact B2|]. intros p q ok Hi. apply in_app_or in Hi. destruct Hi as [Hi|Hi]; [exact (A3 _ _ _ Hi)|exact (B3 _ _ _ Hi)].
Qed.
Hypothesis Hp : forall g ok, owner (fst (fst (f g ok))) = owner g /\ title (fst (fst (f g ok))) = title g /\ pipes (fst (fst (f g ok))) = pipes g.
Lemma each_frame res : forall l k g, owner (fst (fst (each f res k l g))) = owner g /\ title (fst (fst (each f res k l g))) = title g /\ pipes (fst (fst (each f res k l g))) = pipes g.
Proof.
  induction l as [|i l IH]; intros k g; cbn [each]; [cbn; auto|]. destruct i.
  - destruct (res k); [apply IH|cbn; auto].
  - pose proof (Hp g (res k)) as H. destruct (f g (res k)) as [[g1 e1] b1]. cbn [fst snd] in H. destruct b1; [|exact H]. specialize (IH (S k) g1).
    destruct (each f res (S k) l g1) as [[g2 e2] b2]. cbn [fst snd] in *. destruct H as [A1 [A2 A3]], IH as [B1 [B2 B3]]. rewrite B1, B2, B3. auto.
Qed.
End E.
Lemma single_init_frame g ok : owner (fst (fst (single_init g ok))) = owner g /\ title (fst (fst (single_init g ok))) = title g /\ pipes (fst (fst (single_init g ok))) = pipes g.
Proof. unfold single_init. destruct (flag g); cbn; auto. Qed.
Lemma single_destroy_frame g ok : owner (fst (fst (single_destroy g ok))) = owner g /\ title (fst (fst (single_destroy g ok))) = title g /\ pipes (fst (fst (single_destroy g ok))) = pipes g.
Proof. unfold single_destroy. destruct (flag g); cbn; auto. Qed.

(** init loop: the flag does not fall, and stands at the end if the loop succeeded and met a shared element. *)
Lemma init_keeps res : forall l k g, flag g = true -> flag (fst (fst (each single_init res k l g))) = true.
Proof.
  induction l as [|i l IH]; intros k g H; cbn [each]; [exact H|]. destruct i; [destruct (res k); [apply IH; exact H|exact H]|].
  unfold single_init at 1. rewrite H. specialize (IH (S k) g H). destruct (each single_init res (S k) l g) as [[g2 e2] b2]. exact IH.
Qed.
Lemma init_sets res : forall l k g, In Shared l -> snd (each single_init res k l g) = true -> flag (fst (fst (each single_init res k l g))) = true.
Proof.
  induction l as [|i l IH]; intros k g Hi; [destruct Hi|]. cbn [each]. destruct i.
  - destruct Hi as [Hi|Hi]; [discriminate|]. destruct (res k); [apply IH; exact Hi|discriminate].
  - unfold single_init at 1 3. destruct (flag g) eqn:F.
    + pose proof (init_keeps res l (S k) g F) as K. destruct (each single_init res (S k) l g) as [[g2 e2] b2]. intros _. exact K.
    + destruct (res k); [|discriminate]. set (g1 := mkG _ _ _ _). pose proof (init_keeps res l (S k) g1 eq_refl) as K. destruct (each single_init res (S k) l g1) as [[g2 e2] b2]. intros _. exact K.
Qed.

(** One call, all calls. *)
Lemma run_events_run g p e : In e (run_events g p) -> exists q ok, e = ERun p q ok.
Proof. unfold run_events. intros H. apply in_flat_map in H. destruct H as [[|] [_ H]]; [destruct H|]. destruct H as [<-|[]]. eauto. Qed.
Lemma runs_only b es : (forall e, In e es -> exists p q ok, e = ERun p q ok) -> seq_ok b es /\ alive_from b es = b.
Proof.
  revert b. induction es as [|e es IH]; intros b H; [split; [apply seq_ok_nil|reflexivity]|]. destruct (H e (or_introl eq_refl)) as [p [q [ok ->]]].
  destruct (IH b (fun e He => H e (or_intror He))) as [H1 H2]. split; [|exact H2].
  apply (seq_ok_app b [ERun p q ok] es); [split; intros [|? [|? ?]] ? ? E; discriminate|exact H1].
Qed.
Lemma step_good g o : seq_ok (flag g) (snd (fst (step g o))) /\ alive_from (flag g) (snd (fst (step g o))) = flag (fst (fst (step g o))).
Proof.
  assert (N : seq_ok (flag g) [] /\ alive_from (flag g) [] = flag g) by (split; [apply seq_ok_nil|reflexivity]).
  destruct o as [p k nm|p k|p res|p|p res|p]; cbn [step].
  - destruct (p_dead (pipes g p) || p_init (pipes g p)); exact N.
  - destruct (p_dead (pipes g p) || p_init (pipes g p)); exact N.
  - destruct (p_dead (pipes g p) || p_init (pipes g p)); [exact N|]. pose proof (each_good single_init single_init_good res (p_items (pipes g p)) 0 g) as [H1 [H2 _]].
    destruct (each single_init res 0 (p_items (pipes g p)) g) as [[g1 es] b]. destruct b; cbn in *; auto.
  - destruct (p_dead (pipes g p) || negb (p_init (pipes g p))); [exact N|]. cbn [fst snd]. apply runs_only. intros e He. exists p. apply (run_events_run g p e He).
  - destruct (p_dead (pipes g p) || negb (p_init (pipes g p))); [exact N|]. pose proof (each_good single_destroy single_destroy_good res (p_items (pipes g p)) 0 g) as [H1 [H2 _]].
    destruct (each single_destroy res 0 (p_items (pipes g p)) g) as [[g1 es] b]. destruct b; cbn in *; auto.
  - exact N.
Qed.
Lemma play_good h : forall g, seq_ok (flag g) (snd (play g h)) /\ alive_from (flag g) (snd (play g h)) = flag (fst (play g h)).
Proof.
  induction h as [|o h IH]; intros g; cbn [play]; [split; [apply seq_ok_nil|reflexivity]|].
  pose proof (step_good g o) as [H1 H2]. destruct (step g o) as [[g1 e1] b]. cbn [fst snd] in *. destruct (IH g1) as [H3 H4]. destruct (play g1 h) as [g2 e2]. cbn [fst snd] in *.
  split; [apply seq_ok_app; [exact H1|rewrite H2; exact H3]|]. rewrite alive_from_app, H2. exact H4.
Qed.
Lemma flag_alive h : flag (after h) = alive (calls h).
Proof. unfold after, calls, alive. symmetry. apply (play_good h start). Qed.

(** The pipelines change only by the calls made on them. *)
Lemma step_pipe g o q : (match o with OReg p _ _ | OPlain p _ | OInit p _ | ORun p | ODestroy p _ | ODelete p => p <> q end) -> pipes (fst (fst (step g o))) q = pipes g q.
Proof.
  destruct o as [p k nm|p k|p res|p|p res|p]; intros Hq; cbn [step].
  - destruct (p_dead (pipes g p) || p_init (pipes g p)); [reflexivity|]. cbn. apply upd_other; auto.
  - destruct (p_dead (pipes g p) || p_init (pipes g p)); [reflexivity|]. cbn. apply upd_other; auto.
  - destruct (p_dead (pipes g p) || p_init (pipes g p)); [reflexivity|]. pose proof (each_frame single_init single_init_frame res (p_items (pipes g p)) 0 g) as [_ [_ H]].
    destruct (each single_init res 0 (p_items (pipes g p)) g) as [[g1 es] b]. cbn [fst snd] in *. destruct b; cbn; rewrite H; [apply upd_other; auto|reflexivity].
  - destruct (p_dead (pipes g p) || negb (p_init (pipes g p))); reflexivity.
  - destruct (p_dead (pipes g p) || negb (p_init (pipes g p))); [reflexivity|]. pose proof (each_frame single_destroy single_destroy_frame res (p_items (pipes g p)) 0 g) as [_ [_ H]].
    destruct (each single_destroy res 0 (p_items (pipes g p)) g) as [[g1 es] b]. cbn [fst snd] in *. destruct b; cbn; rewrite H; [apply upd_other; auto|reflexivity].
  - cbn. apply upd_other; auto.
Qed.
(** As long as nothing is destroyed the flag does not fall and an initialised pipeline stays as it is. *)
Lemma step_keeps g o p : (forall q res, o <> ODestroy q res) -> flag g = true -> p_init (pipes g p) = true ->
  flag (fst (fst (step g o))) = true /\ p_init (pipes (fst (fst (step g o))) p) = true /\ p_items (pipes (fst (fst (step g o))) p) = p_items (pipes g p).
Proof.
  intros Hd Hf Hp. assert (N : flag g = true /\ p_init (pipes g p) = true /\ p_items (pipes g p) = p_items (pipes g p)) by auto.
  destruct o as [q k nm|q k|q res|q|q res|q]; cbn [step].
  - destruct (Nat.eq_dec q p) as [->|Hq]; [rewrite Hp, orb_true_r; exact N|]. destruct (p_dead (pipes g q) || p_init (pipes g q)); [exact N|]. cbn. rewrite upd_other by auto. exact N.
  - destruct (Nat.eq_dec q p) as [->|Hq]; [rewrite Hp, orb_true_r; exact N|]. destruct (p_dead (pipes g q) || p_init (pipes g q)); [exact N|]. cbn. rewrite upd_other by auto. exact N.
  - destruct (Nat.eq_dec q p) as [->|Hq]; [rewrite Hp, orb_true_r; exact N|]. destruct (p_dead (pipes g q) || p_init (pipes g q)); [exact N|].
    pose proof (each_frame single_init single_init_frame res (p_items (pipes g q)) 0 g) as [_ [_ H]]. pose proof (init_keeps res (p_items (pipes g q)) 0 g Hf) as K.
    destruct (each single_init res 0 (p_items (pipes g q)) g) as [[g1 es] b]. cbn [fst snd] in *. destruct b; cbn; rewrite H, ?(upd_other (pipes g) q _ p) by auto; auto.
  - destruct (p_dead (pipes g q) || negb (p_init (pipes g q))); exact N.
  - exfalso. exact (Hd q res eq_refl).
  - cbn. destruct (Nat.eq_dec q p) as [->|Hq]; [rewrite upd_same; cbn; auto|rewrite upd_other by auto; exact N].
Qed.
Lemma play_keeps p : forall h g, no_destroy h -> flag g = true -> p_init (pipes g p) = true -> flag (fst (play g h)) = true.
Proof.
  induction h as [|o h IH]; intros g Hd Hf Hp; cbn [play]; [exact Hf|]. destruct (step_keeps g o p) as [H1 [H2 _]]; auto; [intros q res ->; exact (Hd q res (or_introl eq_refl))|].
  destruct (step g o) as [[g1 e1] b]. cbn [fst snd] in *. specialize (IH g1 (fun q res H => Hd q res (or_intror H)) H1 H2). destruct (play g1 h). exact IH.
Qed.
