(** Proofs about the ring buffer. *)
From Verif Require Export RingSpec.
From Coq Require Import Lia.
Local Open Scope nat_scope.
Local Open Scope list_scope.

(** The buffer holds the messages [q], oldest first. *)
Record rep (c : nat) (q : list nat) (s : rb) : Prop := mk_rep
  { r_cap : rb_cap s = c;
    r_len : length (rb_cells s) = c;
    r_head : rb_head s < c;
    r_size : length q < c;
    r_tail : rb_tail s = (rb_head s + length q) mod c;
    r_cell : forall i x, nth_error q i = Some x -> nth_error (rb_cells s) ((rb_head s + i) mod c) = Some (Some x) }.

Lemma mod_cases c a : 0 < c -> a < 2 * c -> a mod c = if a <? c then a else a - c.
Proof.
  intros Hc Ha. destruct (Nat.ltb_spec a c) as [H|H]; [now apply Nat.mod_small|].
  symmetry. apply (Nat.mod_unique a c 1 (a - c)); lia.
Qed.
Lemma mod_inj c h i j : 0 < c -> h < c -> i < c -> j < c -> (h + i) mod c = (h + j) mod c -> i = j.
Proof.
  intros Hc Hh Hi Hj. rewrite !mod_cases by lia. destruct (Nat.ltb_spec (h + i) c), (Nat.ltb_spec (h + j) c); lia.
Qed.
Lemma set_nth_some {A} (x : A) : forall l i, i < length l -> exists l', set_nth i x l = Some l' /\ length l' = length l /\
  nth_error l' i = Some x /\ forall j, j <> i -> nth_error l' j = nth_error l j.
Proof.
  induction l as [|y r IH]; intros i Hi; [cbn in Hi; lia|]. destruct i as [|i]; cbn.
  - exists (x :: r). do 3 (split; [easy|]). intros [|j] Hj; [easy|reflexivity].
  - cbn in Hi. destruct (IH i) as [l' [E [E1 [E2 E3]]]]; [lia|]. rewrite E. exists (y :: l'). cbn. split; [easy|]. split; [lia|]. split; [easy|].
    intros [|j] Hj; [easy|]. cbn. apply E3. lia.
Qed.

Lemma rep_new c : 0 < c -> rep c [] (rb_new c).
Proof.
  intros Hc. constructor; cbn; try lia; try easy.
  - now rewrite repeat_length.
  - rewrite Nat.mod_small; lia.
  - intros i x H. destruct i; discriminate.
Qed.
Lemma rep_full c q s : 0 < c -> rep c q s -> rb_full s = Some (Nat.eqb (length q) (c - 1)).
Proof.
  intros Hc H. unfold rb_full. rewrite (r_cap _ _ _ H). destruct c as [|c']; [lia|]. set (c := S c') in *. f_equal.
  rewrite (r_tail _ _ _ H), Nat.add_mod_idemp_l by lia. pose proof (r_head _ _ _ H). pose proof (r_size _ _ _ H).
  rewrite mod_cases by lia. apply Bool.eq_true_iff_eq. rewrite !Nat.eqb_eq. destruct (Nat.ltb_spec (rb_head s + length q + 1) c); lia.
Qed.
Lemma rep_empty c q s : 0 < c -> rep c q s -> rb_empty s = Nat.eqb (length q) 0.
Proof.
  intros Hc H. unfold rb_empty. rewrite (r_tail _ _ _ H). pose proof (r_head _ _ _ H). pose proof (r_size _ _ _ H).
  rewrite mod_cases by lia. apply Bool.eq_true_iff_eq. rewrite !Nat.eqb_eq. destruct (Nat.ltb_spec (rb_head s + length q) c); lia.
Qed.
Lemma rep_store c q s v : rep c q s -> length q < c - 1 -> exists s', rb_store v s = Some s' /\ rep c (q ++ [v]) s'.
Proof.
  intros H Hq. pose proof (r_head _ _ _ H) as Hh. pose proof (r_size _ _ _ H) as Hs. pose proof (r_len _ _ _ H) as Hl.
  assert (Hc : 0 < c) by lia.
  assert (Ht : rb_tail s < length (rb_cells s)) by (rewrite (r_tail _ _ _ H), Hl; apply Nat.mod_upper_bound; lia).
  unfold rb_store. destruct (set_nth_some (Some v) _ _ Ht) as [l [E [E1 [E2 E3]]]]. rewrite E. eexists. split; [reflexivity|].
  constructor; cbn.
  - apply H.
  - lia.
  - easy.
  - rewrite app_length. cbn. lia.
  - rewrite (r_cap _ _ _ H), (r_tail _ _ _ H), Nat.add_mod_idemp_l, app_length by lia. f_equal. cbn. lia.
  - intros i x Hi. destruct (Nat.eq_dec i (length q)) as [->|Hne].
    + rewrite nth_error_app2, Nat.sub_diag in Hi by lia. injection Hi as <-. now rewrite <- (r_tail _ _ _ H).
    + assert (Hlt : i < length q). { assert (i < length (q ++ [v])) by (apply nth_error_Some; congruence). rewrite app_length in H0. cbn in H0. lia. }
      rewrite nth_error_app1 in Hi by easy. rewrite E3; [now apply (r_cell _ _ _ H)|].
      rewrite (r_tail _ _ _ H). intros Eq. apply mod_inj in Eq; lia.
Qed.
Lemma rep_head_cell c x q s : rep c (x :: q) s -> nth_error (rb_cells s) (rb_head s) = Some (Some x).
Proof.
  intros H. pose proof (r_cell _ _ _ H 0 x eq_refl) as E. rewrite Nat.add_0_r, Nat.mod_small in E; [easy|apply H].
Qed.
Lemma rep_advance c x q s l : rep c (x :: q) s -> length l = c -> (forall j, j <> rb_head s -> nth_error l j = nth_error (rb_cells s) j) ->
  rep c q (mkRB (rb_cap s) ((rb_head s + 1) mod rb_cap s) (rb_tail s) l).
Proof.
  intros H Hl E. pose proof (r_head _ _ _ H) as Hh. pose proof (r_size _ _ _ H) as Hs. cbn in Hs. assert (Hc : 0 < c) by lia.
  rewrite (r_cap _ _ _ H). constructor; cbn.
  - easy.
  - easy.
  - apply Nat.mod_upper_bound. lia.
  - lia.
  - rewrite Nat.add_mod_idemp_l, (r_tail _ _ _ H) by lia. f_equal. cbn. lia.
  - intros i y Hi. assert (i < length q) by (apply nth_error_Some; congruence). rewrite Nat.add_mod_idemp_l by lia. rewrite E.
    + replace (rb_head s + 1 + i) with (rb_head s + S i) by lia. now apply (r_cell _ _ _ H).
    + intros Eq. rewrite <- (Nat.mod_small (rb_head s) c Hh) in Eq at 2. rewrite <- (Nat.add_0_r (rb_head s)) in Eq at 2.
      rewrite <- Nat.add_assoc in Eq. apply mod_inj in Eq; lia.
Qed.
Lemma rep_skip c x q s : rep c (x :: q) s -> rep c q (rb_skip s).
Proof. intros H. apply (rep_advance c x q s (rb_cells s) H); [apply H|easy]. Qed.
Lemma rep_take c x q s : rep c (x :: q) s -> exists s', rb_take s = Some (s', Some x) /\ rep c q s'.
Proof.
  intros H. unfold rb_take. rewrite (rep_head_cell _ _ _ _ H).
  destruct (set_nth_some (@None nat) (rb_cells s) (rb_head s)) as [l [E [E1 [E2 E3]]]].
  { rewrite (r_len _ _ _ H). apply H. }
  rewrite E. eexists. split; [reflexivity|]. apply (rep_advance c x q s l H); [now rewrite E1, (r_len _ _ _ H)|easy].
Qed.

(** * Sequential use *)
Fixpoint q_answers (c : nat) (h0 h : list rop) : list rans :=
  match h with [] => [] | o :: r => q_answer c (q_after c h0) o :: q_answers c (o :: h0) r end.
Lemma rb_push_rep c q s v g : 2 <= c -> rep c q s -> exists s', rb_push v g s = Some (s', match q_answer c q (RPush v g) with RPushed p => p | _ => PBlocked end) /\ rep c (q_push c v g q) s'.
Proof.
  intros Hc H. unfold rb_push, q_push. cbn [q_answer]. rewrite (rep_full c q s) by (lia || easy). pose proof (r_size _ _ _ H) as Hs.
  destruct (Nat.eqb_spec (length q) (c - 1)) as [E|E].
  - destruct (Nat.ltb_spec (length q) (c - 1)) as [Hlt|Hge]; [lia|]. destruct g.
    + now exists s.
    + destruct q as [|x q]; [cbn in E; lia|]. cbn [tl]. destruct (rep_store c q (rb_skip s) v) as [s' [E1 R]]; [now apply (rep_skip c x)|cbn in E; lia|]. rewrite E1. now exists s'.
    + now exists s.
  - destruct (Nat.ltb_spec (length q) (c - 1)) as [Hlt|Hge]; [|lia]. destruct (rep_store c q s v H Hlt) as [s' [E1 R]]. rewrite E1. now exists s'.
Qed.
Lemma rb_do_rep c q s o : 2 <= c -> rep c q s ->
  exists s', rb_do s o = Some (s', q_answer c q o) /\ rep c (match o with RPush v g => q_push c v g q | RPop => tl q end) s'.
Proof.
  intros Hc H. destruct o as [v g|]; cbn [rb_do].
  - destruct (rb_push_rep c q s v g Hc H) as [s' [E R]]. rewrite E. exists s'. split; [|easy]. cbn [q_answer]. easy.
  - unfold rb_pop. rewrite (rep_empty c q s) by (lia || easy). destruct q as [|x q]; cbn [length Nat.eqb q_answer tl].
    + now exists s.
    + destruct (rep_take c x q s H) as [s' [E R]]. rewrite E. now exists s'.
Qed.
Lemma rb_run_rep c : 2 <= c -> forall h h0 s, rep c (q_after c h0) s ->
  exists s', rb_run s h = Some (s', q_answers c h0 h) /\ rep c (q_after c (rev h ++ h0)) s'.
Proof.
  intros Hc. induction h as [|o r IH]; intros h0 s H; cbn [rb_run q_answers].
  - now exists s.
  - destruct (rb_do_rep c _ s o Hc H) as [s1 [E1 R1]]. rewrite E1.
    assert (R1' : rep c (q_after c (o :: h0)) s1) by (destruct o; exact R1).
    destruct (IH (o :: h0) s1 R1') as [s2 [E2 R2]]. rewrite E2. exists s2. split; [easy|]. cbn [rev]. now rewrite <- app_assoc.
Qed.
Lemma q_answers_nth c : forall h1 h0 o h2, nth_error (q_answers c h0 (h1 ++ o :: h2)) (length h1) = Some (q_answer c (q_after c (rev h1 ++ h0)) o).
Proof. induction h1 as [|a r IH]; intros h0 o h2; cbn; [easy|]. rewrite IH, <- app_assoc. easy. Qed.
Lemma q_bound c h : 2 <= c -> length (q_after c h) <= c - 1.
Proof.
  intros Hc. induction h as [|[v g|] r IH]; cbn; [lia| |].
  - unfold q_push. destruct (Nat.ltb_spec (length (q_after c r)) (c - 1)); [rewrite app_length; cbn; lia|].
    destruct g; try easy. rewrite app_length. cbn. destruct (q_after c r); cbn in *; lia.
  - destruct (q_after c r); cbn in *; lia.
Qed.

(** * Concurrent use *)
Definition cnt (n : nat) (f : tstate -> bool) (th : nat -> tstate) : nat := sumf (fun t => b2n (f (th t))) (seq 0 n).
Lemma cnt_upd_out n f th t x : n <= t -> cnt n f (upd th t x) = cnt n f th.
Proof. intros H. apply sumf_ext. intros u Hu. apply in_seq in Hu. now rewrite upd_other by lia. Qed.
Lemma cnt_upd n f th t x : t < n -> cnt n f (upd th t x) + b2n (f (th t)) = cnt n f th + b2n (f x).
Proof.
  intros H. unfold cnt.
  assert (Hn : NoDup (seq 0 n)) by apply seq_NoDup. assert (Hi : In t (seq 0 n)) by (apply in_seq; lia).
  revert Hn Hi. generalize (seq 0 n). induction l as [|a r IH]; intros Hn Hi; [easy|]. inversion Hn; subst. cbn [sumf].
  destruct Hi as [->|Hi].
  - rewrite upd_same. assert (E : sumf (fun u => b2n (f (upd th t x u))) r = sumf (fun u => b2n (f (th u))) r).
    { apply sumf_ext. intros u Hu. rewrite upd_other; [easy|]. intros ->. contradiction. }
    rewrite E. lia.
  - rewrite (upd_other th t x a) by (intros ->; contradiction). specialize (IH H3 Hi). lia.
Qed.
Definition is_pop_woken x := match x with TPopWoken => true | _ => false end.
Definition is_push_woken x := match x with TPushWoken _ => true | _ => false end.
Definition is_push_sig x := match x with TPushSig => true | _ => false end.
Definition is_pop_sig x := match x with TPopSig _ => true | _ => false end.
Record cinv (n c : nat) (s : cst) : Prop := mk_cinv
  { cv_out : forall t, n <= t -> c_th s t = TIdle;
    cv_rep : exists q, rep c q (c_rb s) /\ map Some (c_ins s) = map snd (c_outs s) ++ map Some q /\
      (0 < cnt n is_pop_sleep (c_th s) -> length q <= cnt n is_pop_woken (c_th s) + cnt n is_push_sig (c_th s)) /\
      (0 < cnt n is_push_sleep (c_th s) -> c - 1 - length q <= cnt n is_push_woken (c_th s) + cnt n is_pop_sig (c_th s)) }.
Lemma cnt_zero n f th : cnt n f th = 0 <-> existsb (fun u => f (th u)) (seq 0 n) = false.
Proof.
  unfold cnt. split.
  - intros H. destruct (existsb _ _) eqn:E; [|easy]. apply existsb_exists in E. destruct E as [u [Hu E]].
    pose proof (sumf_in (fun t => b2n (f (th t))) (seq 0 n) u Hu) as Hs. rewrite H in Hs. cbn in Hs. rewrite E in Hs. cbn in Hs. lia.
  - intros H. apply sumf_zero. intros u Hu. destruct (f (th u)) eqn:E; [|easy].
    assert (existsb (fun u => f (th u)) (seq 0 n) = true) by (apply existsb_exists; now exists u). congruence.
Qed.
Lemma cnt6 n th t x : t < n ->
  cnt n is_pop_sleep (upd th t x) + b2n (is_pop_sleep (th t)) = cnt n is_pop_sleep th + b2n (is_pop_sleep x) /\
  cnt n is_push_sleep (upd th t x) + b2n (is_push_sleep (th t)) = cnt n is_push_sleep th + b2n (is_push_sleep x) /\
  cnt n is_pop_woken (upd th t x) + b2n (is_pop_woken (th t)) = cnt n is_pop_woken th + b2n (is_pop_woken x) /\
  cnt n is_push_woken (upd th t x) + b2n (is_push_woken (th t)) = cnt n is_push_woken th + b2n (is_push_woken x) /\
  cnt n is_pop_sig (upd th t x) + b2n (is_pop_sig (th t)) = cnt n is_pop_sig th + b2n (is_pop_sig x) /\
  cnt n is_push_sig (upd th t x) + b2n (is_push_sig (th t)) = cnt n is_push_sig th + b2n (is_push_sig x).
Proof. intros H. do 5 (split; [now apply cnt_upd|]). now apply cnt_upd. Qed.
Ltac six n th t x Ht E :=
  let H := fresh "H6" in pose proof (cnt6 n th t x Ht) as H; rewrite ?E in H;
  cbn [is_pop_sleep is_push_sleep is_pop_woken is_push_woken is_pop_sig is_push_sig b2n] in H.
Lemma cinv_new n c : 0 < c -> cinv n c (c_new c).
Proof.
  intros Hc. constructor; [easy|]. exists []. split; [now apply rep_new|]. split; [easy|].
  split; cbn; [lia|]. intros H. exfalso. assert (E : cnt n is_push_sleep (fun _ => TIdle) = 0) by (apply sumf_zero; easy). cbn in H. lia.
Qed.
Lemma in_range n c s t : cinv n c s -> c_th s t <> TIdle -> t < n.
Proof. intros H Hx. destruct (Nat.lt_ge_cases t n) as [|Hge]; [easy|]. exfalso. apply Hx. now apply (cv_out _ _ _ H). Qed.
Lemma out_upd n (th : nat -> tstate) t x : t < n -> (forall u, n <= u -> th u = TIdle) -> forall u, n <= u -> upd th t x u = TIdle.
Proof. intros Ht H u Hu. rewrite upd_other by lia. now apply H. Qed.
(** Storing a message: by an idle or a woken pusher, with room in the buffer. *)
Lemma store_inv n c s t v q : 2 <= c -> t < n -> (forall u, n <= u -> c_th s u = TIdle) -> rep c q (c_rb s) -> length q < c - 1 ->
  map Some (c_ins s) = map snd (c_outs s) ++ map Some q ->
  (c_th s t = TIdle \/ c_th s t = TPushWoken v) ->
  (0 < cnt n is_pop_sleep (c_th s) -> length q <= cnt n is_pop_woken (c_th s) + cnt n is_push_sig (c_th s) + 0) ->
  (0 < cnt n is_push_sleep (c_th s) -> c - 1 - length q <= cnt n is_push_woken (c_th s) + cnt n is_pop_sig (c_th s) + b2n (negb (is_push_woken (c_th s t)))) ->
  exists s', c_store t v s = Some s' /\ cinv n c s'.
Proof.
  intros Hc Ht Ho R Hq Hl Hs H1 H2. unfold c_store. destruct (rep_store c q (c_rb s) v R Hq) as [b [E R']]. rewrite E.
  eexists. split; [reflexivity|]. constructor; cbn; [now apply out_upd|]. exists (q ++ [v]). split; [easy|]. split.
  - rewrite !map_app, Hl. cbn. now rewrite <- app_assoc.
  - rewrite app_length. cbn [length]. destruct Hs as [Hs|Hs]; rewrite Hs in H2; cbn in H2; six n (c_th s) t TPushSig Ht Hs; split; intros Hx; lia.
Qed.
Lemma take_inv n c s t x q : 2 <= c -> t < n -> cinv n c s -> rep c (x :: q) (c_rb s) ->
  map Some (c_ins s) = map snd (c_outs s) ++ map Some (x :: q) ->
  (c_th s t = TIdle \/ c_th s t = TPopWoken \/ c_th s t = TPopSleep) ->
  (0 < cnt n is_pop_sleep (c_th s) -> length (x :: q) <= cnt n is_pop_woken (c_th s) + cnt n is_push_sig (c_th s)) ->
  (0 < cnt n is_push_sleep (c_th s) -> c - 1 - length (x :: q) <= cnt n is_push_woken (c_th s) + cnt n is_pop_sig (c_th s)) ->
  exists s', c_take t s = Some s' /\ cinv n c s'.
Proof.
  intros Hc Ht H R Hl Hs H1 H2. unfold c_take. destruct (rep_take c x q (c_rb s) R) as [b [E R']]. rewrite E.
  eexists. split; [reflexivity|]. constructor; cbn; [apply out_upd; [easy|apply H]|]. exists q. split; [easy|]. split.
  - rewrite map_app, Hl. cbn. now rewrite <- app_assoc.
  - cbn [length] in H1, H2. pose proof (r_size _ _ _ R) as Hz. cbn in Hz.
    destruct Hs as [Hs|[Hs|Hs]]; six n (c_th s) t (TPopSig (Some x)) Ht Hs; split; intros Hx; lia.
Qed.
Lemma c_step_inv n c s l s' : 2 <= c -> cinv n c s -> c_step n s l = Some s' -> cinv n c s'.
Proof.
  intros Hc H E. pose proof H as H'. destruct H' as [Ho [q [R [Hl [H1 H2]]]]]. pose proof (r_size _ _ _ R) as Hz.
  assert (Hc0 : 0 < c) by lia. pose proof (rep_full c q _ Hc0 R) as Ef. pose proof (rep_empty c q _ Hc0 R) as Ee.
  destruct l as [t v g|t|t|t|t|t w]; cbn [c_step] in E.
  - destruct (Nat.ltb_spec t n) as [Ht|]; cbn [negb] in E; [|discriminate]. destruct (c_th s t) eqn:Et; try discriminate. rewrite Ef in E.
    destruct (Nat.eqb_spec (length q) (c - 1)) as [Eq|Eq].
    + destruct g.
      * injection E as <-. constructor; cbn; [now apply out_upd|]. exists q. do 2 (split; [easy|]).
        six n (c_th s) t (TPushSleep v) Ht Et. split; intros Hx; lia.
      * destruct q as [|x q]; [cbn in Eq; lia|]. rewrite (rep_head_cell _ _ _ _ R) in E.
        destruct (store_inv n c (mkC (rb_skip (c_rb s)) (c_th s) (c_ins s) (c_outs s ++ [(false, Some x)])) t v q) as [s'' [E' I]]; cbn; try easy.
        -- now apply (rep_skip c x).
        -- cbn in Eq. lia.
        -- rewrite Hl, map_app. cbn. now rewrite <- app_assoc.
        -- now left.
        -- cbn in H1. intros Hx. specialize (H1 Hx). lia.
        -- rewrite Et. cbn. cbn in Eq, H2. lia.
        -- rewrite E' in E. now injection E as <-.
      * injection E as <-. easy.
    + destruct (store_inv n c s t v q) as [s'' [E' I]]; try easy; try lia.
      * now left.
      * rewrite E' in E. now injection E as <-.
  - destruct (Nat.ltb_spec t n) as [Ht|]; cbn [negb] in E; [|discriminate]. destruct (c_th s t) eqn:Et; try discriminate. rewrite Ee in E.
    destruct q as [|x q]; cbn [length Nat.eqb] in E.
    + injection E as <-. constructor; cbn; [now apply out_upd|]. exists []. do 2 (split; [easy|]). cbn [length] in *.
      six n (c_th s) t TPopSleep Ht Et. split; intros Hx; lia.
    + destruct (take_inv n c s t x q) as [s'' [E' I]]; try easy; [now left|]. rewrite E' in E. now injection E as <-.
  - assert (Ht : t < n) by (apply (in_range n c s t H); destruct (c_th s t); discriminate).
    destruct (c_th s t) eqn:Et; try discriminate.
    + rewrite Ef in E. destruct (Nat.eqb_spec (length q) (c - 1)) as [Eq|Eq].
      * injection E as <-. constructor; cbn; [now apply out_upd|]. exists q. do 2 (split; [easy|]).
        six n (c_th s) t (TPushSleep v) Ht Et. split; intros Hx; lia.
      * destruct (store_inv n c s t v q) as [s'' [E' I]]; try easy; try lia; [now right|]. rewrite E' in E. now injection E as <-.
    + rewrite Ee in E. destruct q as [|x q]; cbn [length Nat.eqb] in E.
      * injection E as <-. constructor; cbn; [now apply out_upd|]. exists []. do 2 (split; [easy|]). cbn [length] in *.
        six n (c_th s) t TPopSleep Ht Et. split; intros Hx; lia.
      * destruct (take_inv n c s t x q) as [s'' [E' I]]; try easy; [right; now left|]. rewrite E' in E. now injection E as <-.
  - assert (Ht : t < n) by (apply (in_range n c s t H); destruct (c_th s t); discriminate).
    destruct (c_th s t) eqn:Et; try discriminate; injection E as <-; (constructor; cbn; [now apply out_upd|]); exists q; do 2 (split; [easy|]).
    + six n (c_th s) t (TPushWoken v) Ht Et. split; intros Hx; lia.
    + six n (c_th s) t TPopWoken Ht Et. split; intros Hx; lia.
  - assert (Ht : t < n) by (apply (in_range n c s t H); destruct (c_th s t); discriminate).
    destruct (c_th s t) eqn:Et; try discriminate; rewrite Ee in E; (destruct q as [|x q]; cbn [length Nat.eqb] in E;
      [ injection E as <-; (constructor; cbn; [now apply out_upd|]); exists []; do 2 (split; [easy|]); cbn [length] in *;
        six n (c_th s) t TIdle Ht Et; split; intros Hx; lia
      | destruct (take_inv n c s t x q) as [s'' [E' I]]; try easy; [first [right; now left | right; now right]|]; rewrite E' in E; now injection E as <- ]).
  - assert (Ht : t < n) by (apply (in_range n c s t H); destruct (c_th s t); discriminate).
    destruct (c_th s t) eqn:Et; try discriminate; destruct w as [u|].
    + destruct (c_th s u) eqn:Eu; try discriminate. injection E as <-.
      assert (Hu : u < n) by (apply (in_range n c s u H); congruence).
      assert (Eu' : upd (c_th s) t TIdle u = TPopSleep) by (rewrite upd_other; [easy|congruence]).
      constructor; cbn; [apply out_upd; [easy|now apply out_upd]|]. exists q. do 2 (split; [easy|]).
      six n (c_th s) t TIdle Ht Et. six n (upd (c_th s) t TIdle) u TPopWoken Hu Eu'. split; intros Hx; lia.
    + destruct (existsb _ _) eqn:Ex in E; [discriminate|]. injection E as <-. apply (cnt_zero n is_pop_sleep) in Ex.
      constructor; cbn; [now apply out_upd|]. exists q. do 2 (split; [easy|]). six n (c_th s) t TIdle Ht Et. split; intros Hx; lia.
    + destruct (c_th s u) eqn:Eu; try discriminate. injection E as <-.
      assert (Hu : u < n) by (apply (in_range n c s u H); congruence).
      assert (Eu' : upd (c_th s) t TIdle u = TPushSleep v0) by (rewrite upd_other; [easy|congruence]).
      constructor; cbn; [apply out_upd; [easy|now apply out_upd]|]. exists q. do 2 (split; [easy|]).
      six n (c_th s) t TIdle Ht Et. six n (upd (c_th s) t TIdle) u (TPushWoken v0) Hu Eu'. split; intros Hx; lia.
    + destruct (existsb _ _) eqn:Ex in E; [discriminate|]. injection E as <-. apply (cnt_zero n is_push_sleep) in Ex.
      constructor; cbn; [now apply out_upd|]. exists q. do 2 (split; [easy|]). six n (c_th s) t TIdle Ht Et. split; intros Hx; lia.
Qed.
Lemma c_run_inv n c : 2 <= c -> forall ls s s', cinv n c s -> c_run n s ls = Some s' -> cinv n c s'.
Proof.
  intros Hc. induction ls as [|l r IH]; intros s s' H E; cbn in E; [now injection E as <-|].
  destruct (c_step n s l) as [s1|] eqn:E1; [|discriminate]. apply (IH s1 s'); [|easy]. now apply (c_step_inv n c s l).
Qed.
