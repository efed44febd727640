From Verif Require Import GraphSpec SEngSpec StaticProofs SEngLeft PoolProofs PoolLive BindProofs EngPoolProofs EngLiveProofs EngFairProofs SEngProofs.
From Coq Require Import Lia Permutation.
Local Open Scope nat_scope.
Local Open Scope list_scope.

(** A step that may happen: of the engine or not, of the pool or not *)
Lemma may_cases c k s l s' : xmay l = true -> xstep c k s l = Some s' ->
  ((exists dl, sstep (se_s s) dl = Some (se_s s')) \/ (se_s s' = se_s s /\ se_who s' = se_who s /\ exists g, l = XPool g))
  /\ (se_p s' = se_p s \/ exists g, works g = true /\ pool_step k (se_p s) g = Next (se_p s') /\ (l = XPool g \/ exists r b a e, l = XMain r b a /\ g = LSubmit e (sc_bind c e) b a)).
Proof.
  intros A E. destruct l as [|r b a|w r|g]; try discriminate; cbn [xstep] in E.
  - destruct (sstep (se_s s) (SMain r)) as [d|] eqn:D; [|discriminate]. destruct (commits (se_s s)) as [e|]; [destruct (pool_step k (se_p s) _) as [| |p] eqn:Ep; try discriminate|]; injection E as <-; cbn [se_s se_p]; (split; [left; now exists (SMain r)|]); [|now left].
    right. eexists. split; [|split; [exact Ep|]]; [reflexivity|]. right. now exists r, b, a, e.
  - destruct (who_has w (se_who s)) as [e|]; [|discriminate]. destruct (sstep (se_s s) (SFinish e r)) as [d|] eqn:D; [|discriminate]. injection E as <-. split; [left; now exists (SFinish e r)|now left].
  - assert (W : works g = true) by (destruct g; try discriminate; reflexivity). destruct (existsb _ _ || _); [discriminate|]. destruct (pool_step k (se_p s) g) as [| |p] eqn:Ep; try discriminate.
    destruct (executes (se_p s) g) as [[w t]|]; [destruct (memb t _)|].
    + destruct (sstep (se_s s) (SStart t)) as [d|] eqn:D; [|discriminate]. injection E as <-. split; [left; now exists (SStart t)|right]. exists g. split; [exact W|]. split; [exact Ep|now left].
    + injection E as <-. split; [right; split; [reflexivity|]; split; [reflexivity|now exists g]|right]. exists g. split; [exact W|]. split; [exact Ep|now left].
    + injection E as <-. split; [right; split; [reflexivity|]; split; [reflexivity|now exists g]|right]. exists g. split; [exact W|]. split; [exact Ep|now left].
Qed.
(** What holds all the time *)
Record xgood (c : secfg) (k : cfg) (g : graph) (s : seng) : Prop :=
  { xg_i : exists hs hp, xinv c k g hs hp s; xg_r : pool_ready k (se_p s); xg_l : live k (se_p s); xg_p : pinv k (se_p s); xg_g : xlong_ok c k (se_p s) }.
Lemma xgood_step c k g s l s' : wf g -> layering g (sc_mat c) -> xgood c k g s -> xmay l = true -> xstep c k s l = Some s' -> xgood c k g s'.
Proof.
  intros Hwf Hl [(hs & hp & GI) GR GL GP GG] A E. pose proof (xstep_inv c k g hs hp s l s' Hwf Hl GI E) as GI'. destruct (may_cases c k s l s' A E) as [_ P].
  assert (X : pool_ready k (se_p s') /\ live k (se_p s') /\ pinv k (se_p s') /\ xlong_ok c k (se_p s')).
  { destruct P as [->|(q & W & Ep & _)]; [split; [exact GR|]; split; [exact GL|]; split; [exact GP|exact GG]|]. destruct (works_keeps k _ q _ W Ep) as (K1 & K2 & K3 & K4 & K5 & K6). split; [|split; [|split]].
    - unfold pool_ready. now rewrite K1, K2, K3, K4.
    - exact (live_step k _ q _ GL Ep).
    - now destruct (pool_step_inv k _ q _ GP Ep).
    - destruct GG as [(j & GG)|GG]; [left; exists j; unfold sec_alive in *; now rewrite K5, K6|now right]. }
  destruct X as (X1 & X2 & X3 & X4). constructor; trivial. eexists. eexists. exact GI'.
Qed.
(** The measure of both *)
Definition xtotal (k : cfg) (s : seng) : nat := 3 * s_measure (se_s s) + todo k (se_p s).
Lemma xtotal_step c k g s l s' : batches_ok k -> xgood c k g s -> xat_work l = true -> xstep c k s l = Some s' ->
  xtotal k s' < xtotal k s
  \/ (xtotal k s' = xtotal k s /\ se_s s' = se_s s /\ se_who s' = se_who s /\
      ((exists i x, l = XPool (LPrim i true) /\ i < c_def k /\ se_p s' = set_pt (se_p s) i x /\ pmove k (se_p s) i (p_pt (se_p s) i) x /\ inside (map fst (se_who s)) (LPrim i true) = false)
       \/ (exists j x, l = XPool (LSec j true) /\ se_p s' = set_st (se_p s) j x /\ smove (se_p s) j (p_st (se_p s) j) x /\ inside (map fst (se_who s)) (LSec j true) = false))).
Proof.
  intros B G A E. unfold xtotal. assert (MA : xmay l = true) by (unfold xmay; now rewrite A). destruct (may_cases c k s l s' MA E) as [[(dl & D)|(D & W & g0 & L)] P].
  - left. apply sstep_measure in D. assert (T : todo k (se_p s') <= todo k (se_p s) + 2); [|lia]. destruct P as [->|(q & Wq & Ep & _)]; [lia|]. exact (todo_works k _ q _ B (xg_r _ _ _ _ G) (xg_p _ _ _ _ G) Wq Ep).
  - subst l. assert (IN : inside (map fst (se_who s)) g0 = false) by (cbn [xstep] in E; destruct (inside (map fst (se_who s)) g0); trivial; rewrite Bool.orb_true_r in E; discriminate).
    rewrite D. destruct P as [P|(q & Wq & Ep & [Q|(r & b & a & e & Q & _)])]; [| |discriminate].
    + exfalso. cbn [xstep] in E. destruct (existsb _ _ || _); [discriminate|]. destruct (pool_step k (se_p s) g0) as [| |p] eqn:Ep; try discriminate.
      assert (EP : p = se_p s) by (destruct (executes (se_p s) g0) as [[w t]|]; [destruct (memb t _); [destruct (sstep (se_s s) _); [|discriminate]|]|]; injection E as <-; exact P). subst p.
      pose proof (lucky_prim k _ g0 _ (xg_p _ _ _ _ G) Ep) as R. destruct g0 as [| | | | | |i ok|j ok| | | |]; try discriminate; cbn in A; subst ok; cbn [pool_step] in Ep.
      * destruct (prim_moves k _ i _ R B (xg_r _ _ _ _ G) Ep) as [H|[_ (x & X1 & X2)]]; [lia|]. assert (Z : p_pt (se_p s) i = x) by (rewrite X1 at 1; pc; apply upd_same). rewrite Z in X2. inversion X2; try discriminate; lia.
      * destruct (sec_moves k _ j _ R B Ep) as [H|[_ (x & X1 & X2)]]; [lia|]. assert (Z : p_st (se_p s) j = x) by (rewrite X1 at 1; pc; apply upd_same). rewrite Z in X2. inversion X2; discriminate.
    + injection Q as <-. pose proof (lucky_prim k _ g0 _ (xg_p _ _ _ _ G) Ep) as R. destruct g0 as [| | | | | |i ok|j ok| | | |]; try discriminate; cbn in A; subst ok; cbn [pool_step] in Ep.
      * destruct (prim_moves k _ i _ R B (xg_r _ _ _ _ G) Ep) as [H|[H (x & X1 & X2)]]; [left; lia|right]. split; [lia|]. split; [reflexivity|]. split; [exact W|]. left. now exists i, x.
      * destruct (sec_moves k _ j _ R B Ep) as [H|[H (x & X1 & X2)]]; [left; lia|right]. split; [lia|]. split; [reflexivity|]. split; [exact W|]. right. now exists j, x.
Qed.
Lemma xtotal_may c k g s l s' : batches_ok k -> xgood c k g s -> xmay l = true -> xstep c k s l = Some s' -> xtotal k s' <= xtotal k s + 2.
Proof.
  intros B G A E. unfold xtotal. destruct (may_cases c k s l s' A E) as [D P].
  assert (M : s_measure (se_s s') <= s_measure (se_s s)) by (destruct D as [(dl & D)|(-> & _)]; [apply sstep_measure in D; lia|lia]).
  assert (T : todo k (se_p s') <= todo k (se_p s) + 2); [|lia]. destruct P as [->|(q & Wq & Ep & _)]; [lia|]. exact (todo_works k _ q _ B (xg_r _ _ _ _ G) (xg_p _ _ _ _ G) Wq Ep).
Qed.

(** Who has to act, and after how many of their actions something is done *)
Inductive xdue (k : cfg) (s : seng) : nat -> actor -> Prop :=
| xd_main : ~ waits (se_s s) -> xdue k s 0 Caller
| xd_act w : In w (map fst (se_who s)) -> xdue k s 0 (InPool w)
| xd_hand i x l : i < c_def k -> p_pt (se_p s) i = PRun (x :: l) -> xdue k s 0 (InPool (Prim i))
| xd_shand j x l : p_st (se_p s) j = SRun (x :: l) -> xdue k s 0 (InPool (Sec j))
| xd_own i : i < c_def k -> p_wsq (se_p s) i <> [] -> se_who s = [] -> xdue k s (rank_own k i (p_pt (se_p s) i)) (InPool (Prim i))
| xd_pool : 0 < c_def k -> p_q (se_p s) <> [] -> se_who s = [] -> xdue k s (rank_pool k 0 (p_pt (se_p s) 0)) (InPool (Prim 0))
| xd_prio j : sec_alive (se_p s) j -> p_prio (se_p s) <> [] -> se_who s = [] -> xdue k s (rank_prio (p_st (se_p s) j)) (InPool (Sec j)).
Lemma xrank_small k s r a : xdue k s r a -> r < top_rank k.
Proof.
  unfold top_rank. intros D. destruct D; try lia; unfold rank_own, rank_pool, rank_prio; rewrite ?targets_len.
  - destruct (p_pt (se_p s) i) as [| |[|n]|[|x l]|]; lia.
  - destruct (p_pt (se_p s) 0) as [| |[|n]|[|x l]|]; lia.
  - destruct (p_st (se_p s) j) as [| | | |[|x l]|]; lia.
Qed.
Lemma xdue_not_resting c k g s r a : xgood c k g s -> xdue k s r a -> ~ xresting k s a.
Proof.
  intros G D R. destruct D; cbn [xresting] in R; try tauto; destruct R as [R1 R]; try lia; try congruence.
  destruct (lv_s _ _ (xg_l _ _ _ _ G) j (proj1 H)) as [_ L]. specialize (L R). destruct H. congruence.
Qed.
(** A step of which nothing came: what was due is still due, sooner if it was a step of the one who has to act *)
Lemma xdue_step c k g s l s' r a : batches_ok k -> xgood c k g s -> xat_work l = true -> xstep c k s l = Some s' -> xdue k s r a ->
  xtotal k s' < xtotal k s \/ (xtotal k s' = xtotal k s /\ exists r', xdue k s' r' a /\ r' + (if xacts l a then 1 else 0) <= r).
Proof.
  intros B G A E D. destruct (xtotal_step c k g s l s' B G A E) as [H|(T & ED & EW & M)]; [now left|right]. split; [exact T|].
  destruct M as [(i & x & -> & Hi & EP & PM & IN)|(j & x & -> & EP & SM & IN)].
  - destruct D as [D1|w D|n y l0 Hn D|n y l0 D|n Hn D D2|D0 D D2|n D0 D D2].
    + exists 0. split; [apply xd_main; now rewrite ED|]. reflexivity.
    + exists 0. split; [apply xd_act; now rewrite EW|]. cbn [xacts]. destruct w as [m|m]; [|lia]. destruct (Nat.eqb_spec i m) as [->|]; [|lia].
      rewrite (inside_in _ (Prim m) (LPrim m true) D eq_refl) in IN. discriminate.
    + cbn [xacts]. destruct (Nat.eqb_spec i n) as [->|NE]; [rewrite D in PM; inversion PM|]. exists 0. split; [|lia]. apply (xd_hand k s' n y l0 Hn). rewrite EP. pc. rewrite upd_other; congruence.
    + exists 0. split; [|cbn; lia]. apply (xd_shand k s' n y l0). rewrite EP. pc. exact D.
    + cbn [xacts]. destruct (Nat.eqb_spec i n) as [->|NE].
      * exists (rank_own k n x). split.
        -- replace x with (p_pt (se_p s') n) by (rewrite EP; pc; apply upd_same). apply xd_own; [exact Hn|rewrite EP; exact D|now rewrite EW].
        -- inversion PM as [P1 P2|P1|P1 P2|m j N P2|m N Q P2]; cbn [rank_own]; try lia; [contradiction|]. assert (m < length (targets k n)) by (apply nth_error_Some; congruence). lia.
      * exists (rank_own k n (p_pt (se_p s) n)). split; [|lia]. replace (p_pt (se_p s) n) with (p_pt (se_p s') n) by (rewrite EP; pc; apply upd_other; congruence).
        apply xd_own; [exact Hn|rewrite EP; exact D|now rewrite EW].
    + cbn [xacts]. destruct (Nat.eqb_spec i 0) as [->|NE].
      * exists (rank_pool k 0 x). split.
        -- replace x with (p_pt (se_p s') 0) by (rewrite EP; pc; apply upd_same). apply xd_pool; [exact D0|rewrite EP; exact D|now rewrite EW].
        -- inversion PM as [P1 P2|P1|P1 P2|m j N P2|m N Q P2]; cbn [rank_pool]; try lia; [|contradiction]. assert (m < length (targets k 0)) by (apply nth_error_Some; congruence). lia.
      * exists (rank_pool k 0 (p_pt (se_p s) 0)). split; [|lia]. replace (p_pt (se_p s) 0) with (p_pt (se_p s') 0) by (rewrite EP; pc; apply upd_other; congruence).
        apply xd_pool; [exact D0|rewrite EP; exact D|now rewrite EW].
    + exists (rank_prio (p_st (se_p s) n)). split; [|cbn; lia]. replace (p_st (se_p s) n) with (p_st (se_p s') n) by (now rewrite EP). apply xd_prio; [rewrite EP; exact D0|rewrite EP; exact D|now rewrite EW].
  - destruct D as [D1|w D|n y l0 Hn D|n y l0 D|n Hn D D2|D0 D D2|n D0 D D2].
    + exists 0. split; [apply xd_main; now rewrite ED|]. reflexivity.
    + exists 0. split; [apply xd_act; now rewrite EW|]. cbn [xacts]. destruct w as [m|m]; [lia|]. destruct (Nat.eqb_spec j m) as [->|]; [|lia].
      rewrite (inside_in _ (Sec m) (LSec m true) D eq_refl) in IN. discriminate.
    + exists 0. split; [|cbn; lia]. apply (xd_hand k s' n y l0 Hn). rewrite EP. exact D.
    + cbn [xacts]. destruct (Nat.eqb_spec j n) as [->|NE]; [rewrite D in SM; inversion SM|]. exists 0. split; [|lia]. apply (xd_shand k s' n y l0). rewrite EP. pc. rewrite upd_other; congruence.
    + exists (rank_own k n (p_pt (se_p s) n)). split; [|cbn; lia]. replace (p_pt (se_p s) n) with (p_pt (se_p s') n) by (now rewrite EP). apply xd_own; [exact Hn|rewrite EP; exact D|now rewrite EW].
    + exists (rank_pool k 0 (p_pt (se_p s) 0)). split; [|cbn; lia]. replace (p_pt (se_p s) 0) with (p_pt (se_p s') 0) by (now rewrite EP). apply xd_pool; [exact D0|rewrite EP; exact D|now rewrite EW].
    + cbn [xacts]. destruct (Nat.eqb_spec j n) as [->|NE].
      * exists (rank_prio x). split.
        -- replace x with (p_st (se_p s') n) by (rewrite EP; pc; apply upd_same). apply xd_prio; [rewrite EP; exact D0|rewrite EP; exact D|now rewrite EW].
        -- destruct D0 as [_ ST]. inversion SM; cbn [rank_prio]; try lia; congruence.
      * exists (rank_prio (p_st (se_p s) n)). split; [|lia]. replace (p_st (se_p s) n) with (p_st (se_p s') n) by (rewrite EP; pc; apply upd_other; congruence).
        apply xd_prio; [rewrite EP; exact D0|rewrite EP; exact D|now rewrite EW].
Qed.
Lemma xany_run c k g : wf g -> layering g (sc_mat c) -> batches_ok k -> forall ls s s', xgood c k g s -> forallb xmay ls = true -> xrun c k s ls = Some s' -> xgood c k g s' /\ xtotal k s' <= xtotal k s + 2 * xhits ls.
Proof.
  intros Hwf Hl B. induction ls as [|l ls IH]; intros s s' G A E; cbn [xrun forallb] in *; [injection E as <-; split; [exact G|lia]|]. apply Bool.andb_true_iff in A as [A1 A2].
  destruct (xstep c k s l) as [s1|] eqn:E1; [|discriminate]. destruct (IH s1 s' (xgood_step c k g s l s1 Hwf Hl G A1 E1) A2 E) as [G' T]. split; [exact G'|]. unfold xhits in *. cbn [filter].
  destruct (xdisturbs l) eqn:DL; cbn [length].
  - pose proof (xtotal_may c k g s l s1 B G A1 E1). lia.
  - unfold xmay in A1. rewrite DL, Bool.orb_false_r in A1. destruct (xtotal_step c k g s l s1 B G A1 E1) as [H|[H _]]; lia.
Qed.
Lemma xdue_run c k g : wf g -> layering g (sc_mat c) -> batches_ok k -> forall ls s s' r a, xgood c k g s -> forallb xat_work ls = true -> xrun c k s ls = Some s' -> xdue k s r a ->
  xtotal k s' < xtotal k s \/ (xtotal k s' = xtotal k s /\ exists r', xdue k s' r' a /\ r' + (if xacted ls a then 1 else 0) <= r).
Proof.
  intros Hwf Hl B. induction ls as [|l ls IH]; intros s s' r a G A E D; cbn [xrun forallb xacted existsb] in *; [injection E as <-; right; split; [reflexivity|]; exists r; split; [exact D|lia]|].
  apply Bool.andb_true_iff in A as [A1 A2]. destruct (xstep c k s l) as [s1|] eqn:E1; [|discriminate]. assert (MA : xmay l = true) by (unfold xmay; now rewrite A1). pose proof (xgood_step c k g s l s1 Hwf Hl G MA E1) as G1.
  assert (TR : xtotal k s' <= xtotal k s1).
  { assert (M2 : forallb xmay ls = true /\ xhits ls = 0).
    { clear -A2. unfold xhits. induction ls as [|l ls IH]; [easy|]. cbn [forallb filter] in *. apply Bool.andb_true_iff in A2 as [A1 A2]. destruct (IH A2) as [I1 I2]. unfold xmay at 1. rewrite A1. cbn [orb andb]. split; [exact I1|].
      replace (xdisturbs l) with false; [exact I2|]. destruct l as [| | |[]]; try discriminate; trivial; cbn in *; now subst. }
    destruct M2 as [M2 H0]. destruct (xany_run c k g Hwf Hl B ls s1 s' G1 M2 E) as [_ T]. lia. }
  destruct (xdue_step c k g s l s1 r a B G A1 E1 D) as [H|(T & r1 & D1 & R1)]; [left; lia|].
  destruct (IH s1 s' r1 a G1 A2 E D1) as [H|(T2 & r2 & D2 & R2)]; [left; lia|right]. split; [lia|]. exists r2. split; [exact D2|]. fold (xacted ls a). destruct (xacts l a), (xacted ls a); cbn [orb] in *; lia.
Qed.
Lemma waits_dec s : waits s \/ ~ waits s.
Proof.
  unfold waits. destruct (s_out s); [left; left; discriminate|]. destruct (s_main s) as [|[e|e|e|e|] m]; try (right; intros [F|(x & y & F & _)]; congruence).
  destruct (lookup e (s_futs s)) as [v|] eqn:L.
  - right. intros [F|(x & y & F & N)]; [congruence|]. injection F as <- <-. apply lookup_in in L. now apply (N v).
  - left. right. exists e, m. split; [reflexivity|]. intros v H. apply (in_map fst) in H. apply lookup_some in H as (u & H). cbn in H. congruence.
Qed.
(** Before the run returns someone has to act *)
Lemma xdue_exists c k g s : wf g -> layering g (sc_mat c) -> 0 < c_def k -> xgood c k g s -> s_out (se_s s) = None -> exists r a, xdue k s r a.
Proof.
  intros Hwf Hl Hk G NO. destruct (waits_dec (se_s s)) as [WA|WA]; [|exists 0, Caller; now apply xd_main].
  destruct (se_who s) as [|[w e] who] eqn:EW; [|exists 0, (InPool w); apply xd_act; rewrite EW; now left].
  destruct (xg_i _ _ _ _ G) as (hs & hp & GI). assert (RN : s_running (se_s s) = []).
  { pose proof (xi_r _ _ _ _ _ _ GI) as R. rewrite EW in R. cbn [map count_occ] in R. destruct (s_running (se_s s)) as [|x l]; trivial. specialize (R x). cbn in R. destruct (Nat.eq_dec x x); [discriminate|congruence]. }
  destruct (xi_s _ _ _ _ _ _ GI) as [F|(_ & con & SI)]; [rewrite F in NO; discriminate|].
  assert (DP : exists t, In t (s_queue (se_s s))).
  { destruct (sinv_progress _ g _ Hwf Hl _ con SI NO) as (l & d & D). destruct l as [r|e|e r]; cbn [sstep] in D.
    - rewrite NO in D. destruct WA as [WA|(e & m & EM & NF)]; [congruence|]. rewrite EM in D. destruct (lookup e (s_futs (se_s s))) as [v|] eqn:L; [|discriminate]. apply lookup_in in L. now destruct (NF v).
    - destruct (s_queue (se_s s)) as [|x q]; [discriminate|]. exists x. now left.
    - rewrite RN in D. discriminate. }
  destruct DP as (t & Ht). apply cnt_in in Ht. assert (He : In t (concat (sc_mat c))).
  { pose proof (si_cons _ _ _ _ _ SI t) as C. apply StaticProofs.cnt_in. unfold StaticProofs.cnt in *. lia. }
  pose proof (xi_c _ _ _ _ _ _ GI t He) as C. destruct (xg_r _ _ _ _ G) as (R1 & R2 & R3 & R4). pose proof (src_run k hp [] pool_new _ (src_new k) (xi_p _ _ _ _ _ _ GI)) as [S1 S2]. cbn [app] in S1, S2.
  unfold census in C. rewrite R4 in C. cbn [count_occ] in C.
  assert (CASES : 0 < sumf (fun i => cnt t (p_held (p_pt (se_p s) i))) (seq 0 (c_def k)) \/ 0 < sumf (fun j => cnt t (s_held (p_st (se_p s) j))) (seq 0 (p_nsec (se_p s)))
     \/ 0 < sumf (fun i => cnt t (p_wsq (se_p s) i)) (seq 0 (c_def k)) \/ 0 < cnt t (p_q (se_p s)) \/ 0 < cnt t (map ptask (p_prio (se_p s))) \/ 0 < sumf (fun q => cnt t (k_held q)) (p_call (se_p s))) by lia.
  destruct CASES as [H|[H|[H|[H|[H|H]]]]].
  - apply flat_len in H as (i & Hi & H). apply in_seq in Hi. destruct (p_pt (se_p s) i) as [| | |[|x l]|] eqn:P; try contradiction. exists 0, (InPool (Prim i)). apply (xd_hand k s i x l); [lia|exact P].
  - apply flat_len in H as (j & Hj & H). destruct (p_st (se_p s) j) as [| | | |[|x l]|] eqn:P; try contradiction. exists 0, (InPool (Sec j)). now apply (xd_shand k s j x l).
  - apply flat_len in H as (i & Hi & H). apply in_seq in Hi. eexists. eexists. apply (xd_own k s i); [lia| |exact EW]. now destruct (p_wsq (se_p s) i).
  - apply cnt_in in H. eexists. eexists. apply xd_pool; [exact Hk|now destruct (p_q (se_p s))|exact EW].
  - apply cnt_in in H. destruct (S1 t H) as (q & G1 & G2 & G3). destruct (xi_g _ _ _ _ _ _ GI q t G1 G2 He) as (b & a & ->). cbn [to_prio] in G3.
    destruct (xg_g _ _ _ _ G) as [(j & SA)|[M NB]]; [eexists; eexists; apply (xd_prio k s j SA); [now destruct (p_prio (se_p s))|exact EW]|].
    exfalso. destruct G3 as [G3|[_ G3]]; [now apply (NB t He)|lia].
  - apply flat_len in H as (q & Hq & H). destruct (S2 q t Hq H) as (z & G1 & G2 & G3). destruct (xi_g _ _ _ _ _ _ GI z t G1 G2 He) as (b & a & ->). contradiction.
Qed.
Lemma out_stays c k s l s' : xmay l = true -> xstep c k s l = Some s' -> s_out (se_s s) <> None -> s_out (se_s s') = s_out (se_s s).
Proof.
  intros A E O. destruct (may_cases c k s l s' A E) as [[(dl & D)|(-> & _)] _]; [|reflexivity]. destruct dl as [r|e|e r]; cbn [sstep] in D.
  - destruct (s_out (se_s s)); [discriminate|congruence].
  - destruct (remove1 e (s_queue (se_s s))); [|discriminate]. now injection D as <-.
  - destruct (remove1 e (s_running (se_s s))); [|discriminate]. now injection D as <-.
Qed.
Lemma out_run c k : forall ls s s', forallb xmay ls = true -> xrun c k s ls = Some s' -> s_out (se_s s) <> None -> s_out (se_s s') <> None.
Proof.
  induction ls as [|l ls IH]; intros s s' A E O; cbn [xrun forallb] in *; [now injection E as <-|]. apply Bool.andb_true_iff in A as [A1 A2]. destruct (xstep c k s l) as [s1|] eqn:E1; [|discriminate].
  apply (IH s1 s' A2 E). now rewrite (out_stays c k s l s1 A1 E1 O).
Qed.
Lemma xrun_cat c k l1 : forall s s1 l2, xrun c k s l1 = Some s1 -> xrun c k s (l1 ++ l2) = xrun c k s1 l2.
Proof. induction l1 as [|l l1 IH]; intros s s1 l2 E; cbn [xrun app] in *; [now injection E as <-|]. destruct (xstep c k s l); [|discriminate]. now apply IH. Qed.
Lemma xrounds_run c k : forall s n m s', xrounds c k s n m s' -> exists ls, forallb xmay ls = true /\ xrun c k s ls = Some s'.
Proof.
  intros s n m s' F. induction F as [s|s ls s1 n m s2 E R F IH]; [exists []; now split|]. destruct IH as (ls2 & A & E2). exists (ls ++ ls2). split; [rewrite forallb_app; apply Bool.andb_true_iff; split; [apply R|exact A]|].
  now rewrite (xrun_cat c k ls s s1 ls2 E).
Qed.
Lemma xno_hits : forall ls, forallb xmay ls = true -> xhits ls = 0 -> forallb xat_work ls = true.
Proof.
  induction ls as [|l ls IH]; intros A H; [reflexivity|]. cbn [forallb] in *. apply Bool.andb_true_iff in A as [A1 A2]. unfold xhits in H. cbn [filter] in H. unfold xmay in A1.
  destruct (xdisturbs l); [discriminate|]. rewrite Bool.orb_false_r in A1. rewrite A1. cbn [andb]. now apply IH.
Qed.
(** After enough rounds the run has returned *)
Lemma xrounds_end c k g : wf g -> layering g (sc_mat c) -> batches_ok k -> 0 < c_def k ->
  forall s n m s', xrounds c k s n m s' -> forall r a, xgood c k g s -> xdue k s r a -> (xtotal k s + 4 * m) * top_rank k + r < n -> s_out (se_s s') <> None.
Proof.
  intros Hwf Hl B Hk s n m s' F. induction F as [s|s ls s1 n m s2 E R F IH]; intros r a G D L; [lia|]. destruct R as [A R].
  destruct (xrounds_run c k _ _ _ _ F) as (l2 & A2 & E2). pose proof (out_run c k _ _ _ A2 E2) as I2.
  destruct (s_out (se_s s1)) eqn:X; [apply I2; discriminate|]. clear I2.
  destruct (xany_run c k g Hwf Hl B ls s s1 G A E) as [G1 T1].
  destruct (xdue_exists c k g s1 Hwf Hl Hk G1 X) as (r1 & a1 & D1). pose proof (xrank_small k _ _ _ D1) as S1.
  destruct (Nat.eq_0_gt_0_cases (xhits ls)) as [Z|Z].
  - rewrite Z in *. destruct (xdue_run c k g Hwf Hl B ls s s1 r a G (xno_hits ls A Z) E D) as [T|(T & r2 & D2 & L2)].
    + apply (IH r1 a1 G1 D1). assert ((xtotal k s1 + 4 * m) * top_rank k + top_rank k <= (xtotal k s + 4 * (0 + m)) * top_rank k) by nia. lia.
    + apply (IH r2 a G1 D2). destruct (R a) as [Y|Y]; [now apply (xdue_not_resting c k g s r a G D) in Y|]. rewrite Y in L2. rewrite T. cbn [Nat.add] in *. lia.
  - apply (IH r1 a1 G1 D1). assert ((xtotal k s1 + 4 * m) * top_rank k + 2 * top_rank k <= (xtotal k s + 4 * (xhits ls + m)) * top_rank k) by nia. lia.
Qed.

(** Nobody can be kept from acting *)
Definition xbusy (k : cfg) (s : seng) (a : actor) : Prop :=
  match a with
  | Caller => ~ waits (se_s s)
  | InPool w => In w (map fst (se_who s)) \/ match w with Prim i => i < c_def k | Sec j => p_st (se_p s) j <> SExit end
  end.
Lemma in_who_dec w (l : list thr) : In w l \/ ~ In w l.
Proof.
  destruct (existsb (thr_eqb w) l) eqn:X; [left; apply existsb_exists in X as (v & V & Hv); now apply thr_eqb_eq in Hv as <-|right; intros Hw].
  assert (existsb (thr_eqb w) l = true) by (apply existsb_exists; exists w; split; [exact Hw|apply thr_eqb_refl]). congruence.
Qed.
Lemma xbusy_or k s a : xbusy k s a \/ xresting k s a.
Proof.
  destruct a as [|w]; cbn [xbusy xresting]; [destruct (waits_dec (se_s s)); tauto|]. destruct (in_who_dec w (map fst (se_who s))) as [N|N]; [now left; left|].
  destruct w as [i|j]; [destruct (Nat.lt_ge_cases i (c_def k)); [left; now right|right; now split]|]. destruct (p_st (se_p s) j); try (left; right; discriminate). right. now split.
Qed.
Lemma who_out_other w v : forall l, In v (map fst l) -> thr_eqb v w = false -> In v (map fst (who_out w l)).
Proof.
  induction l as [|[u x] l IH]; cbn [who_out map]; [easy|]. intros [H|H] N; destruct (thr_eqb w u) eqn:E.
  - cbn in H. subst u. apply thr_eqb_eq in E. subst v. now rewrite thr_eqb_refl in N.
  - left. exact H.
  - exact H.
  - right. now apply IH.
Qed.
Lemma xbusy_step c k s l s' a : xat_work l = true -> xstep c k s l = Some s' -> xacts l a = false -> xbusy k s a -> xbusy k s' a.
Proof.
  intros A E N B. assert (MA : xmay l = true) by (unfold xmay; now rewrite A). destruct a as [|w]; cbn [xbusy] in *.
  - assert (X : s_out (se_s s') = s_out (se_s s) /\ s_main (se_s s') = s_main (se_s s) /\ incl (s_futs (se_s s)) (s_futs (se_s s'))).
    { destruct l as [|r b x|w r|g]; try discriminate; cbn [xstep] in E.
      - destruct (who_has w (se_who s)) as [e|]; [|discriminate]. cbn [sstep] in E. destruct (remove1 e (s_running (se_s s))); [|discriminate]. injection E as <-. cbn. split; [reflexivity|]. split; [reflexivity|]. intros y Hy. now right.
      - destruct (existsb _ _ || _); [discriminate|]. destruct (pool_step k (se_p s) g); try discriminate. destruct (executes (se_p s) g) as [[v t]|]; [destruct (memb t _)|]; try (injection E as <-; split; [reflexivity|]; split; [reflexivity|apply incl_refl]).
        cbn [sstep] in E. destruct (remove1 t (s_queue (se_s s))); [|discriminate]. injection E as <-. cbn. split; [reflexivity|]. split; [reflexivity|apply incl_refl]. }
    destruct X as (X1 & X2 & X3). intros [F|(e & m & F1 & F2)]; apply B; [left; congruence|right; exists e, m]. split; [congruence|]. intros v Hv. now apply (F2 v), X3.
  - assert (ST : forall j, w = Sec j -> p_st (se_p s') j = p_st (se_p s) j).
    { intros j ->. destruct (may_cases c k s l s' MA E) as [_ [->|(g & W & Ep & L)]]; [reflexivity|]. destruct (nsec_step k _ _ _ Ep) as (_ & _ & X). apply X; [exact W|]. intros ok ->.
      destruct L as [->|(r & b & x & e & -> & F)]; [cbn [xacts] in N; now rewrite Nat.eqb_refl in N|discriminate]. }
    destruct B as [B|B].
    + left. destruct l as [|r b x|v r|g]; try discriminate; cbn [xstep] in E.
      * destruct (sstep (se_s s) (SMain r)); [|discriminate]. destruct (commits (se_s s)); [destruct (pool_step k (se_p s) _); try discriminate|]; injection E as <-; exact B.
      * destruct (who_has v (se_who s)) as [e|]; [|discriminate]. destruct (sstep (se_s s) (SFinish e r)); [|discriminate]. injection E as <-. cbn [se_who]. now apply who_out_other.
      * destruct (existsb _ _ || _); [discriminate|]. destruct (pool_step k (se_p s) g); try discriminate. destruct (executes (se_p s) g) as [[v t]|]; [destruct (memb t _); [destruct (sstep (se_s s) _); [|discriminate]|]|]; injection E as <-; try exact B.
        cbn [se_who]. rewrite map_app. apply in_or_app. now left.
    + right. destruct w as [i|j]; [exact B|]. now rewrite (ST j eq_refl).
Qed.
