(** A run of parallelRunAll on the pool comes to an end: measure, and who has to act *)
From Verif Require Import PEngSpec DynInv DynTerm ParProofs PoolLive.
From Verif Require Import PoolProofs BindProofs EngPoolProofs EngLiveProofs PEngProofs.
From Coq Require Import Lia Permutation.
Local Open Scope nat_scope.
Local Open Scope list_scope.

(** * The engine does not see how many threads there are *)
Lemma PI_cw c w num st tr B : PI c num st tr B <-> PI (cw c w) num st tr B.
Proof. split; intros [A1 A2 A3 A4 A5 A6 A7 A8]; constructor; trivial. Qed.
Lemma PInv_cw c w s : PInv c s <-> PInv (cw c w) s.
Proof.
  split; intros [A1 A2 A3]; constructor; trivial; unfold pphase_ok in *; destruct (p_main s); trivial; try (now apply (PI_cw c w)).
  - destruct (p_out s); trivial. destruct A1 as (B & A1). split; [now apply (PI_cw c w)|exact A1].
  - destruct A1 as (B & A1). split; [now apply (PI_cw c w)|exact A1].
  - destruct (p_out s); trivial. destruct A1 as (B & A1). split; [now apply (PI_cw c w) in B|exact A1].
  - destruct A1 as (B & A1). split; [now apply (PI_cw c w) in B|exact A1].
Qed.
Definition okc (c : pecfg) : Prop := NoDup (p_els (pc_c c)) /\ concat (p_rows (pc_c c)) = p_els (pc_c c).
Lemma wstep_inv c d l d' : okc c -> PInv (pc_c c) d -> (l = LRun -> p_may_call d) -> pstep (wide (pc_c c) d) d l = Some d' -> PInv (pc_c c) d'.
Proof. intros [K1 K2] I M E. apply (PInv_cw (pc_c c) (S (length (p_act d)))). apply (PInv_step (wide (pc_c c) d) K1 K2 d l); trivial. now apply (PInv_cw (pc_c c) (S (length (p_act d)))) in I. Qed.
Lemma wstep_measure c d l d' : okc c -> l <> LRun -> pstep (wide (pc_c c) d) d l = Some d' -> S (pmeasure (pc_c c) d') <= pmeasure (pc_c c) d + spur l.
Proof. intros [K1 K2] N E. exact (pstep_measure (wide (pc_c c) d) K2 d l d' N E). Qed.

(** * The pool with a queue that is locked *)
Lemma prim_any k p i p' : i < c_def k -> p_stop p i = false -> prim_step k p i true = Next p' -> todo k p' < todo k p \/ (todo k p' = todo k p /\ exists x, p' = set_pt p i x).
Proof.
  intros Hi ST E. unfold prim_step in E. destruct (p_pt p i) as [| |[|n]|[|x r]|] eqn:P; try discriminate.
  - rewrite ST in E. injection E as <-. right. pose proof (todo_prim k p i (PTry 0) Hi) as T. rewrite P in T. cbn [p_held length] in T. split; [lia|now eexists].
  - assert (N : todo k (set_pt p i (PTry 1)) = todo k p) by (pose proof (todo_prim k p i (PTry 1) Hi) as T; rewrite P in T; cbn [p_held length] in T; lia).
    destruct (p_lk p i) as [q|]; [destruct (own_take k (p_wsq p i)) as [[|x a] b]; injection E as <-; right; (split; [exact N|now eexists])|]. destruct (own_take k (p_wsq p i)) as [[|x a] b] eqn:T; injection E as <-; [right; split; [exact N|now eexists]|].
    left. pose proof (own_take_app _ _ _ _ T) as TA. pose proof (todo_wsq k p i b Hi) as U. pose proof (todo_prim k (set_wsq p i b) i (PRun (x :: a)) Hi) as V. cbn [set_wsq p_pt] in V. rewrite P in V. cbn [p_held length] in V.
    rewrite TA, app_length in U. cbn [length] in U. lia.
  - destruct (nth_error (targets k i) n) as [j|] eqn:Nt.
    + assert (N : todo k (set_pt p i (PTry (S (S n)))) = todo k p) by (pose proof (todo_prim k p i (PTry (S (S n))) Hi) as T; rewrite P in T; cbn [p_held length] in T; lia).
      pose proof (targets_lt k i j (nth_error_In _ _ Nt)) as Hj. destruct (p_lk p j) as [q|]; [destruct (steal_take k (p_wsq p j)) as [[|x a] b]; injection E as <-; right; (split; [exact N|now eexists])|].
      destruct (steal_take k (p_wsq p j)) as [[|x a] b] eqn:T; injection E as <-; [right; split; [exact N|now eexists]|].
      left. pose proof (steal_take_app _ _ _ _ T) as TA. pose proof (todo_wsq k p j b Hj) as U. pose proof (todo_prim k (set_wsq p j b) i (PRun (x :: a)) Hi) as V. cbn [set_wsq p_pt] in V. rewrite P in V. cbn [p_held length] in V.
      rewrite TA, app_length, rev_length in U. cbn [length] in U. lia.
    + destruct (pool_take k (p_q p)) as [[|x a] b] eqn:T; injection E as <-.
      * right. pose proof (todo_prim k p i PLoop Hi) as U. rewrite P in U. cbn [p_held length] in U. split; [lia|now eexists].
      * left. pose proof (pool_take_app _ _ _ _ T) as TA. pose proof (todo_q k p b) as U. pose proof (todo_prim k (set_q p b) i (PRun (x :: a)) Hi) as V. cbn [set_q p_pt] in V. rewrite P in V. cbn [p_held length] in V.
        rewrite TA, app_length in U. cbn [length] in U. lia.
  - injection E as <-. right. pose proof (todo_prim k p i PLoop Hi) as U. rewrite P in U. cbn [p_held length] in U. split; [lia|now eexists].
  - injection E as <-. left. pose proof (todo_prim k p i (PRun r) Hi) as U. rewrite P in U. cbn [p_held length] in U. assert (W : todo k (add_log (set_pt p i (PRun r)) x) = todo k (set_pt p i (PRun r))) by reflexivity. lia.
Qed.
(** The calls of the engine *)
Lemma call_todo c k p q b a p' : In q (run_calls c) -> pinv k p -> pool_step k p (with_choice b a q) = Next p' ->
  todo k p' <= todo k p + 2 /\ PoolModel.p_init p' = PoolModel.p_init p /\ p_stop p' = p_stop p /\ p_drop p' = p_drop p /\ p_sec p' = p_sec p /\ p_sstop p' = p_sstop p /\ p_st p' = p_st p /\ p_nsec p' = p_nsec p /\
  (forall i u, p_lk p' i = Some u -> u = pc_me c \/ p_lk p i = Some u).
Proof.
  intros Q P E. destruct (calls_from _ _ _ _ _ Q) as (j & row & e & _ & _ & [(_ & en & lk & ->)|(_ & ->)]); cbn [with_choice] in E.
  - change (0 + j) with j in *. assert (Z : forall s i o, todo k (set_lk s i o) = todo k s) by reflexivity. cbn [pool_step] in E. destruct (_ && _)%bool eqn:B in E.
    + apply Bool.andb_true_iff in B as [B1 B2]. apply Z.leb_le in B1. apply Z.ltb_lt in B2. rewrite Nat2Z.id in E. destruct (negb (PoolModel.p_init p)); [discriminate|].
      pose proof (todo_wsq k p j (p_wsq p j ++ [e]) ltac:(lia)) as U. rewrite app_length in U. cbn [length] in U. destruct (en && lk).
      * destruct (p_lk p j) as [q|]; [destruct (Nat.eqb q (pc_me c)); discriminate|]. injection E as <-. rewrite Z. split; [lia|]. do 7 (split; [reflexivity|]). intros i u F.
        change (upd (p_lk p) j (Some (pc_me c)) i = Some u) in F. destruct (Nat.eq_dec i j) as [->|D]; [rewrite upd_same in F; left; congruence|]. rewrite upd_other in F by trivial. now right.
      * destruct (p_lk p j) as [q|]; [|discriminate]. destruct (Nat.eqb q (pc_me c)); [|discriminate]. injection E as <-. destruct en; rewrite ?Z; (split; [lia|]); do 7 (split; [reflexivity|]); intros i u F.
        -- change (upd (p_lk p) j None i = Some u) in F. destruct (Nat.eq_dec i j) as [->|D]; [rewrite upd_same in F; discriminate|]. rewrite upd_other in F by trivial. now right.
        -- now right.
    + injection E as <-. pose proof (todo_q k p (p_q p ++ [e])) as U. rewrite app_length in U. cbn [length] in U. split; [lia|]. do 7 (split; [reflexivity|]). intros i u F. now right.
  - split; [exact (todo_submit k p e _ b a p' P E)|]. assert (ST : p_st p' = p_st p /\ p_nsec p' = p_nsec p).
    { cbn [pool_step] in E. destruct (dispatch _ _ _ _) as [[r cur]|]; [|discriminate]. destruct (dest k r); [destruct (PoolModel.p_init p); [|discriminate]; destruct (p_lk p i); [discriminate|]; injection E as <-; now split|injection E as <-; now split|].
      unfold push_prio in E. destruct (memb _ _); [discriminate|]. injection E as <-. now split. }
    destruct (works_keeps k p (LSubmit e (pc_bind c e) b a) p' eq_refl E) as (K1 & K2 & K3 & K4 & K5 & K6). destruct ST as [S1 S2]. rewrite K3. do 7 (split; [trivial|]). intros i u F. now right.
Qed.
Lemma mine_ready c k s : mine_only c k (pe_p s) -> cut c k (p_main (pe_s s)) (pe_p s) -> p_main (pe_s s) = QAsleep -> pool_ready k (pe_p s).
Proof.
  intros (R1 & R2 & R3 & R4) C M. split; [exact R1|]. split; [exact R2|]. split; [|exact R4]. intros i. destruct (p_lk (pe_p s) i) as [u|] eqn:L; [|reflexivity]. pose proof (R3 i u L). subst u. rewrite M in C. now destruct (C i).
Qed.

(** * What holds all the time *)
Record ygood (c : pecfg) (k : cfg) (s : peng) : Prop :=
  { yg_e : exists hp, yinv c k hp s; yg_i : PInv (pc_c c) (pe_s s); yg_r : mine_only c k (pe_p s); yg_l : live k (pe_p s); yg_p : pinv k (pe_p s); yg_g : ylong_ok c k (pe_p s) }.
(** A step: of the engine, perhaps with one of the pool; or of the pool alone *)
Lemma may_cases c k s l s' : ymay l = true -> ystep c k s l = Some s' ->
  (exists dl, dl <> LRun /\ spur dl <= (if ydisturbs l then 5 else 0) /\ pstep (wide (pc_c c) (pe_s s)) (pe_s s) dl = Some (pe_s s') /\
     (pe_p s' = pe_p s \/ (exists q b a, In q (run_calls c) /\ pool_step k (pe_p s) (with_choice b a q) = Next (pe_p s') /\ ydisturbs l = false)
      \/ exists g, l = YPool g /\ works g = true /\ pool_step k (pe_p s) g = Next (pe_p s')))
  \/ (exists g, l = YPool g /\ works g = true /\ pe_s s' = pe_s s /\ pe_who s' = pe_who s /\ pool_step k (pe_p s) g = Next (pe_p s') /\ inside (pe_who s) g = false).
Proof.
  intros A E. destruct l as [l busy a|g].
  - destruct (ystep_eng c k s l busy a s' E) as (NP & d & Ed & [[Eg ->]|(r & g & p & -> & Eg & Ep & ->)]); left.
    + exists l. split; [intros ->; discriminate|]. split; [destruct l; try discriminate; cbn; lia|]. split; [exact Ed|now left].
    + exists (LMain r). split; [discriminate|]. split; [cbn; lia|]. split; [exact Ed|]. right. left. destruct (next_push c _ _ _ _ Eg) as (e & l & q & _ & En & ->). exists q, busy, a. split; [now apply nth_error_In in En|now split].
  - assert (W : works g = true) by (destruct g; try discriminate; reflexivity). destruct (ystep_pool c k s g s' E) as (_ & IN & _ & p & Ep & [(w & t & d & Ex & Em & Ed & ->)|(NE & ->)]).
    + left. eexists. split; [|split; [|split; [exact Ed|]]]; [discriminate|cbn; lia|]. right. right. now exists g.
    + right. now exists g.
Qed.
Lemma ygood_step c k s l s' : okc c -> ygood c k s -> ymay l = true -> ystep c k s l = Some s' -> ygood c k s'.
Proof.
  intros K [(hp & GE) GI GR GL GP GG] A E. pose proof (ystep_inv c k hp s l s' GE E) as GE'.
  assert (EP : forall g, works g = true -> pool_step k (pe_p s) g = Next (pe_p s') -> mine_only c k (pe_p s') /\ live k (pe_p s') /\ pinv k (pe_p s') /\ ylong_ok c k (pe_p s')).
  { intros g W Ep. destruct (works_keeps k _ g _ W Ep) as (K1 & K2 & K3 & K4 & K5 & K6). split; [|split; [|split]].
    - unfold mine_only. now rewrite K1, K2, K3, K4.
    - exact (live_step k _ g _ GL Ep).
    - now destruct (pool_step_inv k _ g _ GP Ep).
    - destruct GG as [(j & GG)|GG]; [left; exists j; unfold sec_alive in *; now rewrite K5, K6|now right]. }
  assert (EC : forall q b a, In q (run_calls c) -> pool_step k (pe_p s) (with_choice b a q) = Next (pe_p s') -> mine_only c k (pe_p s') /\ live k (pe_p s') /\ pinv k (pe_p s') /\ ylong_ok c k (pe_p s')).
  { intros q b a Q Ep. destruct (call_todo c k _ q b a _ Q GP Ep) as (_ & K1 & K2 & K4 & K5 & K6 & _ & _ & K3). split; [|split; [|split]].
    - destruct GR as (R1 & R2 & R3 & R4). unfold mine_only. rewrite K1, K2, K4. split; [exact R1|]. split; [exact R2|]. split; [|exact R4]. intros i u F. destruct (K3 i u F) as [->|F']; [reflexivity|now apply (R3 i)].
    - exact (live_step k _ _ _ GL Ep).
    - now destruct (pool_step_inv k _ _ _ GP Ep).
    - destruct GG as [(j & GG)|GG]; [left; exists j; unfold sec_alive in *; now rewrite K5, K6|now right]. }
  destruct (may_cases c k s l s' A E) as [(dl & N & _ & D & P)|(g & _ & W & D & _ & P & _)].
  - assert (I' : PInv (pc_c c) (pe_s s')) by (apply (wstep_inv c (pe_s s) dl _ K GI); [intros F; now destruct N|exact D]).
    assert (X : mine_only c k (pe_p s') /\ live k (pe_p s') /\ pinv k (pe_p s') /\ ylong_ok c k (pe_p s')).
    { destruct P as [P|[(q & b & a & Q & P & _)|(g & _ & W & P)]]; [rewrite P; exact (conj GR (conj GL (conj GP GG)))|now apply (EC q b a)|now apply (EP g)]. }
    destruct X as (X1 & X2 & X3 & X4). constructor; trivial. eexists. exact GE'.
  - destruct (EP g W P) as (X1 & X2 & X3 & X4). constructor; trivial; [eexists; exact GE'|now rewrite D].
Qed.
Definition ytotal (c : pecfg) (k : cfg) (s : peng) : nat := 3 * pmeasure (pc_c c) (pe_s s) + todo k (pe_p s).
Lemma ytodo_works c k p g p' : batches_ok k -> mine_only c k p -> pinv k p -> works g = true -> pool_step k p g = Next p' -> todo k p' <= todo k p + 2.
Proof.
  intros B R P W E. pose proof (lucky_prim k _ g _ P E) as L. destruct g as [|t idx busy a| | | | |i ok|j ok| | | |]; try discriminate.
  - exact (todo_submit k p t idx busy a p' P E).
  - cbn [pool_step] in E. assert (X : prim_step k p i true = Next p' -> todo k p' <= todo k p + 2) by (intros X; destruct (prim_any k p i p' L (proj1 (proj2 R) i L) X) as [H|[H _]]; lia).
    destruct ok; [now apply X|]. destruct (prim_fails k p i p' L E) as [F|(x & -> & F1 & F2)]; [now apply X|]. pose proof (todo_prim k p i x L). rewrite F1, F2 in *. cbn [length] in *. lia.
  - cbn [pool_step] in E. assert (X : sec_step k p j true = Next p' -> todo k p' <= todo k p + 2) by (intros X; destruct (sec_moves k p j p' L B X) as [H|[H _]]; lia).
    destruct ok; [now apply X|]. destruct (sec_fails k p j p' E) as [F|(x & -> & F1 & F2)]; [now apply X|]. pose proof (todo_sec k p j x L). rewrite F1, F2 in *. cbn [length] in *. lia.
Qed.
Lemma ytotal_any c k s l s' : okc c -> batches_ok k -> ygood c k s -> ymay l = true -> ystep c k s l = Some s' -> ytotal c k s' <= ytotal c k s + (if ydisturbs l then 17 else 0).
Proof.
  intros K B G A E. unfold ytotal. pose proof (yg_p _ _ _ G) as GP. pose proof (yg_r _ _ _ G) as GR.
  destruct (may_cases c k s l s' A E) as [(dl & N & SP & D & P)|(g & -> & W & D & _ & P & _)].
  - pose proof (wstep_measure c _ dl _ K N D) as M. assert (T : todo k (pe_p s') <= todo k (pe_p s) + 2).
    { destruct P as [->|[(q & b & a & Q & P & _)|(g & _ & W & P)]]; [lia|now destruct (call_todo c k _ q b a _ Q GP P)|exact (ytodo_works c k _ g _ B GR GP W P)]. }
    destruct (ydisturbs l); lia.
  - rewrite D. destruct (ydisturbs (YPool g)) eqn:Dg; [pose proof (ytodo_works c k _ g _ B GR GP W P); lia|].
    pose proof (lucky_prim k _ g _ GP P) as L. destruct g as [| | | | | |i ok|j ok| | | |]; try discriminate; destruct ok; try discriminate; cbn [pool_step] in P.
    + destruct (prim_any k _ i _ L (proj1 (proj2 GR) i L) P) as [H|[H _]]; lia.
    + destruct (sec_moves k _ j _ L B P) as [H|[H _]]; lia.
Qed.
Lemma ytotal_step c k s l s' : okc c -> batches_ok k -> ygood c k s -> yat_work l = true -> ystep c k s l = Some s' ->
  ytotal c k s' < ytotal c k s
  \/ (ytotal c k s' = ytotal c k s /\ pe_s s' = pe_s s /\ pe_who s' = pe_who s /\
      ((exists i x, l = YPool (LPrim i true) /\ i < c_def k /\ pe_p s' = set_pt (pe_p s) i x /\ (p_main (pe_s s) = QAsleep -> pmove k (pe_p s) i (p_pt (pe_p s) i) x) /\ inside (pe_who s) (LPrim i true) = false)
       \/ (exists j x, l = YPool (LSec j true) /\ pe_p s' = set_st (pe_p s) j x /\ smove (pe_p s) j (p_st (pe_p s) j) x /\ inside (pe_who s) (LSec j true) = false))).
Proof.
  intros K B G A E. assert (AM : ymay l = true) by (unfold ymay; now rewrite A). assert (ND : ydisturbs l = false) by (destruct l as [[]|[]]; try discriminate; try reflexivity; destruct ok; trivial; discriminate).
  pose proof (yg_p _ _ _ G) as GP. pose proof (yg_r _ _ _ G) as GR. unfold ytotal. destruct (may_cases c k s l s' AM E) as [(dl & N & SP & D & P)|(g & -> & W & D & EW & P & IN)].
  - left. rewrite ND in SP. pose proof (wstep_measure c _ dl _ K N D) as M. assert (T : todo k (pe_p s') <= todo k (pe_p s) + 2).
    { destruct P as [->|[(q & b & a & Q & P & _)|(g & _ & W & P)]]; [lia|now destruct (call_todo c k _ q b a _ Q GP P)|exact (ytodo_works c k _ g _ B GR GP W P)]. }
    lia.
  - rewrite D. pose proof (lucky_prim k _ g _ GP P) as L. destruct g as [| | | | | |i ok|j ok| | | |]; try discriminate; cbn [yat_work] in A; subst ok; cbn [pool_step] in P.
    + assert (X := prim_any k _ i _ L (proj1 (proj2 GR) i L) P). destruct X as [H|[H (x & X)]]; [left; lia|right]. split; [lia|]. split; [reflexivity|]. split; [exact EW|]. left. exists i, x. split; [reflexivity|]. split; [exact L|]. split; [exact X|]. split; [|exact IN].
      intros M. destruct (yg_e _ _ _ G) as (hp & GE). pose proof (mine_ready c k s GR (yi_m _ _ _ _ GE) M) as RD. destruct (prim_moves k _ i _ L B RD P) as [F|[_ (y & Y1 & Y2)]]; [lia|].
      assert (x = y) by (rewrite X in Y1; apply (f_equal (fun q => p_pt q i)) in Y1; cbn in Y1; now rewrite !upd_same in Y1). now subst y.
    + destruct (sec_moves k _ j _ L B P) as [H|[H (x & X1 & X2)]]; [left; lia|right]. split; [lia|]. split; [reflexivity|]. split; [exact EW|]. right. now exists j, x.
Qed.

(** * Who has to act *)
Inductive ydue (k : cfg) (s : peng) : nat -> actor -> Prop :=
| yu_main : p_main (pe_s s) <> QAsleep -> p_main (pe_s s) <> QIdle -> ydue k s 0 Caller
| yu_act w : p_main (pe_s s) = QAsleep -> In w (pe_who s) -> ydue k s 0 (InPool w)
| yu_hand i x l : p_main (pe_s s) = QAsleep -> i < c_def k -> p_pt (pe_p s) i = PRun (x :: l) -> ydue k s 0 (InPool (Prim i))
| yu_shand j x l : p_main (pe_s s) = QAsleep -> p_st (pe_p s) j = SRun (x :: l) -> ydue k s 0 (InPool (Sec j))
| yu_own i : p_main (pe_s s) = QAsleep -> i < c_def k -> p_wsq (pe_p s) i <> [] -> pe_who s = [] -> ydue k s (rank_own k i (p_pt (pe_p s) i)) (InPool (Prim i))
| yu_pool : p_main (pe_s s) = QAsleep -> 0 < c_def k -> p_q (pe_p s) <> [] -> pe_who s = [] -> ydue k s (rank_pool k 0 (p_pt (pe_p s) 0)) (InPool (Prim 0))
| yu_prio j : p_main (pe_s s) = QAsleep -> sec_alive (pe_p s) j -> p_prio (pe_p s) <> [] -> pe_who s = [] -> ydue k s (rank_prio (p_st (pe_p s) j)) (InPool (Sec j)).
Lemma yrank_small k s r a : ydue k s r a -> r < top_rank k.
Proof.
  unfold top_rank. intros D. destruct D; try lia; unfold rank_own, rank_pool, rank_prio; rewrite ?targets_len.
  - destruct (p_pt (pe_p s) i) as [| |[|n]|[|x l]|]; lia.
  - destruct (p_pt (pe_p s) 0) as [| |[|n]|[|x l]|]; lia.
  - destruct (p_st (pe_p s) j) as [| | | |[|x l]|]; lia.
Qed.
Lemma ydue_not_resting c k s r a : ygood c k s -> ydue k s r a -> ~ yresting k s a.
Proof.
  intros G D R. destruct D; cbn [yresting] in R; try tauto; destruct R as [R1 R]; try lia; try congruence.
  match goal with H : sec_alive _ j |- _ => destruct (lv_s _ _ (yg_l _ _ _ G) j (proj1 H)) as [_ L]; specialize (L R); destruct H; congruence end.
Qed.
Lemma ydue_step c k s l s' r a : okc c -> batches_ok k -> ygood c k s -> yat_work l = true -> ystep c k s l = Some s' -> ydue k s r a ->
  ytotal c k s' < ytotal c k s \/ (ytotal c k s' = ytotal c k s /\ exists r', ydue k s' r' a /\ r' + (if yacts s l a then 1 else 0) <= r).
Proof.
  intros K B G A E D. destruct (ytotal_step c k s l s' K B G A E) as [H|(T & ED & EW & M)]; [now left|right]. split; [exact T|].
  destruct M as [(i & x & -> & Hi & EP & PM & IN)|(j & x & -> & EP & SM & IN)].
  - destruct D as [D1 D2|w QA D|n y l0 QA Hn D|n y l0 QA D|n QA Hn D D2|QA D0 D D2|n QA D0 D D2]; try specialize (PM QA); try (rewrite <- ED in QA).
    + exists 0. split; [apply yu_main; now rewrite ED|]. reflexivity.
    + exists 0. split; [apply yu_act; [exact QA|now rewrite EW]|]. cbn [yacts]. destruct w as [m|m]; [|lia]. destruct (Nat.eqb_spec i m) as [->|]; [|lia].
      rewrite (inside_in _ (Prim m) (LPrim m true) D eq_refl) in IN. discriminate.
    + cbn [yacts]. destruct (Nat.eqb_spec i n) as [->|NE]; [rewrite D in PM; inversion PM|]. exists 0. split; [|lia]. apply (yu_hand k s' n y l0 QA Hn). rewrite EP. pc. rewrite upd_other; congruence.
    + exists 0. split; [|cbn; lia]. apply (yu_shand k s' n y l0 QA). rewrite EP. pc. exact D.
    + cbn [yacts]. destruct (Nat.eqb_spec i n) as [->|NE].
      * exists (rank_own k n x). split.
        -- replace x with (p_pt (pe_p s') n) by (rewrite EP; pc; apply upd_same). apply yu_own; [exact QA|exact Hn|rewrite EP; exact D|now rewrite EW].
        -- inversion PM as [P1 P2|P1|P1 P2|m j N P2|m N Q P2]; cbn [rank_own]; try lia; [contradiction|]. assert (m < length (targets k n)) by (apply nth_error_Some; congruence). lia.
      * exists (rank_own k n (p_pt (pe_p s) n)). split; [|lia]. replace (p_pt (pe_p s) n) with (p_pt (pe_p s') n) by (rewrite EP; pc; apply upd_other; congruence).
        apply yu_own; [exact QA|exact Hn|rewrite EP; exact D|now rewrite EW].
    + cbn [yacts]. destruct (Nat.eqb_spec i 0) as [->|NE].
      * exists (rank_pool k 0 x). split.
        -- replace x with (p_pt (pe_p s') 0) by (rewrite EP; pc; apply upd_same). apply yu_pool; [exact QA|exact D0|rewrite EP; exact D|now rewrite EW].
        -- inversion PM as [P1 P2|P1|P1 P2|m j N P2|m N Q P2]; cbn [rank_pool]; try lia; [|contradiction]. assert (m < length (targets k 0)) by (apply nth_error_Some; congruence). lia.
      * exists (rank_pool k 0 (p_pt (pe_p s) 0)). split; [|lia]. replace (p_pt (pe_p s) 0) with (p_pt (pe_p s') 0) by (rewrite EP; pc; apply upd_other; congruence).
        apply yu_pool; [exact QA|exact D0|rewrite EP; exact D|now rewrite EW].
    + exists (rank_prio (p_st (pe_p s) n)). split; [|cbn; lia]. replace (p_st (pe_p s) n) with (p_st (pe_p s') n) by (now rewrite EP). apply yu_prio; [exact QA|rewrite EP; exact D0|rewrite EP; exact D|now rewrite EW].
  - destruct D as [D1 D2|w QA D|n y l0 QA Hn D|n y l0 QA D|n QA Hn D D2|QA D0 D D2|n QA D0 D D2]; try (rewrite <- ED in QA).
    + exists 0. split; [apply yu_main; now rewrite ED|]. reflexivity.
    + exists 0. split; [apply yu_act; [exact QA|now rewrite EW]|]. cbn [yacts]. destruct w as [m|m]; [lia|]. destruct (Nat.eqb_spec j m) as [->|]; [|lia].
      rewrite (inside_in _ (Sec m) (LSec m true) D eq_refl) in IN. discriminate.
    + exists 0. split; [|cbn; lia]. apply (yu_hand k s' n y l0 QA Hn). rewrite EP. exact D.
    + cbn [yacts]. destruct (Nat.eqb_spec j n) as [->|NE]; [rewrite D in SM; inversion SM|]. exists 0. split; [|lia]. apply (yu_shand k s' n y l0 QA). rewrite EP. pc. rewrite upd_other; congruence.
    + exists (rank_own k n (p_pt (pe_p s) n)). split; [|cbn; lia]. replace (p_pt (pe_p s) n) with (p_pt (pe_p s') n) by (now rewrite EP). apply yu_own; [exact QA|exact Hn|rewrite EP; exact D|now rewrite EW].
    + exists (rank_pool k 0 (p_pt (pe_p s) 0)). split; [|cbn; lia]. replace (p_pt (pe_p s) 0) with (p_pt (pe_p s') 0) by (now rewrite EP). apply yu_pool; [exact QA|exact D0|rewrite EP; exact D|now rewrite EW].
    + cbn [yacts]. destruct (Nat.eqb_spec j n) as [->|NE].
      * exists (rank_prio x). split.
        -- replace x with (p_st (pe_p s') n) by (rewrite EP; pc; apply upd_same). apply yu_prio; [exact QA|rewrite EP; exact D0|rewrite EP; exact D|now rewrite EW].
        -- destruct D0 as [_ ST]. inversion SM; cbn [rank_prio]; try lia; congruence.
      * exists (rank_prio (p_st (pe_p s) n)). split; [|lia]. replace (p_st (pe_p s) n) with (p_st (pe_p s') n) by (rewrite EP; pc; apply upd_other; congruence).
        apply yu_prio; [exact QA|rewrite EP; exact D0|rewrite EP; exact D|now rewrite EW].
Qed.
Lemma yany_run c k : okc c -> batches_ok k -> forall ls s s', ygood c k s -> forallb ymay ls = true -> yrun c k s ls = Some s' -> ygood c k s' /\ ytotal c k s' <= ytotal c k s + 17 * yhits ls.
Proof.
  intros K B. induction ls as [|l ls IH]; intros s s' G A E; cbn [yrun forallb] in *; [injection E as <-; split; [exact G|lia]|]. apply Bool.andb_true_iff in A as [A1 A2].
  destruct (ystep c k s l) as [s1|] eqn:E1; [|discriminate]. destruct (IH s1 s' (ygood_step c k s l s1 K G A1 E1) A2 E) as [G' T]. split; [exact G'|]. pose proof (ytotal_any c k s l s1 K B G A1 E1) as T1.
  unfold yhits in *. cbn [filter]. destruct (ydisturbs l); cbn [length]; lia.
Qed.
Lemma yno_hits : forall ls, forallb ymay ls = true -> yhits ls = 0 -> forallb yat_work ls = true.
Proof.
  induction ls as [|l ls IH]; intros A H; [reflexivity|]. cbn [forallb] in *. apply Bool.andb_true_iff in A as [A1 A2]. unfold yhits in H. cbn [filter] in H. unfold ymay in A1.
  destruct (ydisturbs l); [discriminate|]. rewrite Bool.orb_false_r in A1. rewrite A1. cbn [andb]. now apply IH.
Qed.
Lemma work_may : forall ls, forallb yat_work ls = true -> forallb ymay ls = true /\ yhits ls = 0.
Proof.
  induction ls as [|l ls IH]; intros A; [now split|]. cbn [forallb] in *. apply Bool.andb_true_iff in A as [A1 A2]. destruct (IH A2) as [X Y]. assert (ND : ydisturbs l = false) by (destruct l as [[]|[]]; try discriminate; try reflexivity; destruct ok; trivial; discriminate).
  unfold ymay. rewrite A1. split; [exact X|]. unfold yhits in *. cbn [filter]. now rewrite ND.
Qed.
Lemma ydue_run c k : okc c -> batches_ok k -> forall ls s s' r a, ygood c k s -> forallb yat_work ls = true -> yrun c k s ls = Some s' -> ydue k s r a ->
  ytotal c k s' < ytotal c k s \/ (ytotal c k s' = ytotal c k s /\ exists r', ydue k s' r' a /\ r' + (if yacted c k s ls a then 1 else 0) <= r).
Proof.
  intros K B. induction ls as [|l ls IH]; intros s s' r a G A E D; cbn [yrun forallb yacted] in *; [injection E as <-; right; split; [reflexivity|]; exists r; split; [exact D|lia]|].
  apply Bool.andb_true_iff in A as [A1 A2]. destruct (ystep c k s l) as [s1|] eqn:E1; [|discriminate]. assert (AM : ymay l = true) by (unfold ymay; now rewrite A1). pose proof (ygood_step c k s l s1 K G AM E1) as G1.
  destruct (work_may ls A2) as [A3 Z3]. destruct (yany_run c k K B ls s1 s' G1 A3 E) as [_ TR]. rewrite Z3 in TR. destruct (ydue_step c k s l s1 r a K B G A1 E1 D) as [H|(T & r1 & D1 & R1)]; [left; lia|].
  destruct (IH s1 s' r1 a G1 A2 E D1) as [H|(T2 & r2 & D2 & R2)]; [left; lia|right]. split; [lia|]. exists r2. split; [exact D2|]. destruct (yacts s l a), (yacted c k s1 ls a); cbn [orb] in *; lia.
Qed.
Lemma ydue_exists c k s : okc c -> 0 < c_def k -> ygood c k s -> p_main (pe_s s) <> QIdle -> exists r a, ydue k s r a.
Proof.
  intros K Hk G NI. assert (SL : p_main (pe_s s) = QAsleep \/ p_main (pe_s s) <> QAsleep) by (destruct (p_main (pe_s s)); auto; right; discriminate).
  destruct SL as [SL|SL]; [|exists 0, Caller; now apply yu_main]. destruct (pe_who s) as [|w who] eqn:EW; [|exists 0, (InPool w); apply yu_act; [exact SL|rewrite EW; now left]].
  destruct (yg_e _ _ _ G) as (hp & GE). pose proof (yi_l _ _ _ _ GE) as TL. rewrite EW in TL. cbn [length] in TL.
  assert (DA : p_act (pe_s s) = []) by (destruct (p_act (pe_s s)); [reflexivity|discriminate]).
  assert (DP : exists t, In t (p_pool (pe_s s))).
  { assert (IC : PInv (cw (pc_c c) 1) (pe_s s)) by (apply PInv_cw; exact (yg_i _ _ _ G)). destruct K as [K1 K2]. destruct (pprogress (cw (pc_c c) 1) K1 (pe_s s) IC ltac:(cbn; lia) NI) as (l & s1 & IL & D). destruct l as [|r|i r|i|]; try contradiction; cbn [pstep] in D.
    - rewrite SL in D. discriminate.
    - rewrite DA in D. destruct i; discriminate.
    - destruct (Nat.ltb _ _); [|discriminate]. destruct (nth_error (p_pool (pe_s s)) i) as [e|] eqn:En; [|discriminate]. exists e. now apply nth_error_In in En. }
  destruct DP as (t & Ht). assert (He : In t (p_els (pc_c c))).
  { pose proof (i_phase _ _ (yg_i _ _ _ G)) as P. unfold pphase_ok in P. rewrite SL in P. apply (q_wf _ _ _ _ _ P (PTest t)). unfold bag. apply in_or_app. right. apply in_or_app. left. now apply in_map. }
  pose proof (yi_c _ _ _ _ GE t He) as C. apply BindProofs.cnt_in in Ht. destruct (yg_r _ _ _ G) as (R1 & R2 & R3 & R4). pose proof (src_run k hp [] pool_new _ (src_new k) (yi_p _ _ _ _ GE)) as [S1 S2]. cbn [app] in S1, S2.
  unfold census in C. rewrite R4 in C. cbn [count_occ] in C.
  assert (CASES : 0 < sumf (fun i => count_occ Nat.eq_dec (p_held (p_pt (pe_p s) i)) t) (seq 0 (c_def k)) \/ 0 < sumf (fun j => count_occ Nat.eq_dec (s_held (p_st (pe_p s) j)) t) (seq 0 (p_nsec (pe_p s)))
     \/ 0 < sumf (fun i => count_occ Nat.eq_dec (p_wsq (pe_p s) i) t) (seq 0 (c_def k)) \/ 0 < count_occ Nat.eq_dec (p_q (pe_p s)) t \/ 0 < count_occ Nat.eq_dec (map ptask (p_prio (pe_p s))) t \/ 0 < sumf (fun q => count_occ Nat.eq_dec (k_held q) t) (p_call (pe_p s))) by lia.
  destruct CASES as [H|[H|[H|[H|[H|H]]]]].
  - apply flat_len in H as (i & Hi & H). apply in_seq in Hi. destruct (p_pt (pe_p s) i) as [| | |[|x l]|] eqn:P; try contradiction. exists 0, (InPool (Prim i)). apply (yu_hand k s i x l SL); [lia|exact P].
  - apply flat_len in H as (j & Hj & H). destruct (p_st (pe_p s) j) as [| | | |[|x l]|] eqn:P; try contradiction. exists 0, (InPool (Sec j)). now apply (yu_shand k s j x l).
  - apply flat_len in H as (i & Hi & H). apply in_seq in Hi. eexists. eexists. apply (yu_own k s i SL); [lia| |exact EW]. now destruct (p_wsq (pe_p s) i).
  - apply BindProofs.cnt_in in H. eexists. eexists. apply (yu_pool k s SL); [exact Hk|now destruct (p_q (pe_p s))|exact EW].
  - apply BindProofs.cnt_in in H. destruct (S1 t H) as (g & G1 & G2 & G3). destruct (yi_g _ _ _ _ GE g t G1 G2 He) as (q & b & a & Q & ->).
    destruct (yg_g _ _ _ G) as [(j & SA)|[M NB]]; [eexists; eexists; apply (yu_prio k s j SL SA); [now destruct (p_prio (pe_p s))|exact EW]|].
    exfalso. destruct (calls_from _ _ _ _ _ Q) as (j & row & e & _ & _ & [(_ & en & lk & ->)|(_ & ->)]); cbn [with_choice to_prio] in G3; [contradiction|]. cbn in G2. destruct G2 as [->|[]]. destruct G3 as [G3|[_ G3]]; [now apply (NB t He)|lia].
  - apply flat_len in H as (q & Hq & H). destruct (S2 q t Hq H) as (g & G1 & G2 & G3). destruct (yi_g _ _ _ _ GE g t G1 G2 He) as (q0 & b & a & Q & ->).
    destruct (calls_from _ _ _ _ _ Q) as (j & row & e & _ & _ & [(_ & en & lk & ->)|(_ & ->)]); contradiction.
Qed.
(** Nothing but run leaves the state in which run has returned *)
Lemma pstep_idle c d l d' : l <> LRun -> pstep c d l = Some d' -> p_main d = QIdle -> p_main d' = QIdle /\ p_out d' = p_out d.
Proof.
  intros N E M. destruct l as [|r|i r|i|]; [congruence| | | |]; cbn [pstep] in E; rewrite ?M in E; try discriminate.
  - destruct (nth_error (p_act d) i) as [o|]; [|discriminate]. destruct (pop_enabled QIdle o); [|discriminate]. destruct (pop_sem _ _ _ _ _ _) as [[[[num st] tr] nx] nt]. injection E as <-. cbn. now destruct nt.
  - destruct (Nat.ltb _ _); [|discriminate]. destruct (nth_error _ _); [|discriminate]. injection E as <-. now split.
Qed.
Lemma yidle_run c k : forall ls s s', forallb ymay ls = true -> yrun c k s ls = Some s' -> p_main (pe_s s) = QIdle -> p_main (pe_s s') = QIdle.
Proof.
  induction ls as [|l ls IH]; intros s s' A E M; cbn [yrun forallb] in *; [now injection E as <-|]. apply Bool.andb_true_iff in A as [A1 A2]. destruct (ystep c k s l) as [s1|] eqn:E1; [|discriminate]. apply (IH s1 s' A2 E).
  destruct (may_cases c k s l s1 A1 E1) as [(dl & N & _ & D & _)|(g & _ & _ & D & _)]; [now destruct (pstep_idle _ _ dl _ N D M)|now rewrite D].
Qed.
Lemma yrounds_run c k : forall s n m s', yrounds c k s n m s' -> exists ls, forallb ymay ls = true /\ yrun c k s ls = Some s'.
Proof.
  intros s n m s' F. induction F as [s|s ls s1 n m s2 E R F IH]; [exists []; now split|]. destruct IH as (ls2 & A & E2). exists (ls ++ ls2). split; [rewrite forallb_app; apply Bool.andb_true_iff; split; [apply R|exact A]|].
  clear -E E2. revert s E. induction ls as [|l ls IH]; intros s E; cbn [yrun app] in *; [injection E as <-; exact E2|]. destruct (ystep c k s l); [|discriminate]. now apply IH.
Qed.
(** After enough rounds the run has returned *)
Lemma yrounds_end c k : okc c -> batches_ok k -> 0 < c_def k ->
  forall s n m s', yrounds c k s n m s' -> forall r a, ygood c k s -> ydue k s r a -> (ytotal c k s + 19 * m) * top_rank k + r < n -> p_main (pe_s s') = QIdle.
Proof.
  intros K B Hk s n m s' F. induction F as [s|s ls s1 n m s2 E R F IH]; intros r a G D L; [lia|]. destruct R as [A R].
  destruct (yrounds_run c k _ _ _ _ F) as (l2 & A2 & E2). pose proof (yidle_run c k _ _ _ A2 E2) as I2.
  assert (X : p_main (pe_s s1) = QIdle \/ p_main (pe_s s1) <> QIdle) by (destruct (p_main (pe_s s1)); auto; right; discriminate). destruct X as [X|X]; [now apply I2|].
  destruct (yany_run c k K B ls s s1 G A E) as [G1 T1].
  destruct (ydue_exists c k s1 K Hk G1 X) as (r1 & a1 & D1). pose proof (yrank_small k _ _ _ D1) as S1.
  destruct (Nat.eq_0_gt_0_cases (yhits ls)) as [Z|Z].
  - rewrite Z in *. destruct (ydue_run c k K B ls s s1 r a G (yno_hits ls A Z) E D) as [T|(T & r2 & D2 & L2)].
    + apply (IH r1 a1 G1 D1). assert ((ytotal c k s1 + 19 * m) * top_rank k + top_rank k <= (ytotal c k s + 19 * (0 + m)) * top_rank k) by nia. lia.
    + apply (IH r2 a G1 D2). destruct (R a) as [Y|Y]; [now apply (ydue_not_resting c k s r a G D) in Y|]. rewrite Y in L2. rewrite T. cbn [Nat.add] in *. lia.
  - apply (IH r1 a1 G1 D1). assert ((ytotal c k s1 + 19 * m) * top_rank k + 2 * top_rank k <= (ytotal c k s + 19 * (yhits ls + m)) * top_rank k) by nia. lia.
Qed.
