(** C111: runs of independent elements (parallelRunAll) on the pool *)
From Verif Require Import GraphSpec SEngSpec PEngSpec DynProofs DynInv DynTerm ParProofs FastProps PoolProofs PoolLive BindProofs BindProps EngPoolProofs EngPoolProps EngLiveProofs EngFairProofs PEngProofs PEngLive PEngFair SEngProps.
From Coq Require Import Lia Permutation.
Local Open Scope nat_scope.
Local Open Scope list_scope.

Lemma okc_of g c : par_cfg g (pc_c c) -> okc c.
Proof. intros [Hwf [E1 E2]]. split; [rewrite E1; apply Hwf|congruence]. Qed.
Lemma wide_cw c w d l d' : length (p_act d) < w -> pstep (wide c d) d l = Some d' -> pstep (cw c w) d l = Some d'.
Proof.
  intros L E. destruct l as [|r|i r|i|]; try exact E. cbn [pstep cw wide p_workers] in *. destruct (Nat.ltb_spec (length (p_act d)) w); [|lia].
  destruct (Nat.ltb_spec (length (p_act d)) (S (length (p_act d)))); [exact E|lia].
Qed.
Lemma replace_len {A} : forall i (y : A) l, length (replace_nth i y l) = length l.
Proof. induction i as [|i IH]; intros y [|x l]; cbn; trivial. now rewrite IH. Qed.
Lemma remove_len {A} : forall i (l : list A), length (remove_nth i l) <= length l.
Proof. induction i as [|i IH]; intros [|x l]; cbn; try lia. specialize (IH l). lia. Qed.
Lemma act_grows c d l d' : pstep c d l = Some d' -> length (p_act d') <= S (length (p_act d)).
Proof.
  intros E. destruct l as [|r|i r|i|]; cbn [pstep] in E.
  - destruct (p_main d); try discriminate. injection E as <-. cbn. lia.
  - destruct (p_main d) as [| | |[|e l]|[|n]| | | | | |]; try discriminate; injection E as <-; cbn; lia.
  - destruct (nth_error (p_act d) i) as [o|]; [|discriminate]. destruct (pop_enabled _ o); [|discriminate]. destruct (pop_sem _ _ _ _ o r) as [[[[num st] tr] nx] nt]. injection E as <-. cbn [p_act].
    destruct nx; [rewrite replace_len|pose proof (remove_len i (p_act d))]; lia.
  - destruct (Nat.ltb _ _); [|discriminate]. destruct (nth_error (p_pool d) i); [|discriminate]. injection E as <-. cbn [p_act]. rewrite app_length. cbn. lia.
  - destruct (p_main d); try discriminate. injection E as <-. cbn. lia.
Qed.
Lemma fast_ok c k w : forall ls hp s s', yinv c k hp s -> yrun c k s ls = Some s' -> careful c k s ls -> length (p_act (pe_s s)) + length ls <= w ->
  prun (cw (pc_c c) w) (pe_s s) (fast_part c k s ls) = Some (pe_s s') /\ p_disciplined (cw (pc_c c) w) (pe_s s) (fast_part c k s ls).
Proof.
  induction ls as [|l ls IH]; intros hp s s' I E C L; cbn [yrun fast_part careful length] in *; [injection E as <-; now split|]. destruct C as [C1 C2]. destruct (ystep c k s l) as [s1|] eqn:E1; [|discriminate].
  pose proof (ystep_inv c k hp s l s1 I E1) as I1.
  assert (X : (exists x, (match l with YEng l _ _ => [l] | YPool l => match executes (pe_p s) l with Some (_, t) => if memb t (p_els (pc_c c)) then [LPick (index_of t (p_pool (pe_s s)))] else [] | None => [] end end) = [x]
                /\ pstep (wide (pc_c c) (pe_s s)) (pe_s s) x = Some (pe_s s1) /\ (x = LRun -> p_may_call (pe_s s)))
           \/ ((match l with YEng l _ _ => [l] | YPool l => match executes (pe_p s) l with Some (_, t) => if memb t (p_els (pc_c c)) then [LPick (index_of t (p_pool (pe_s s)))] else [] | None => [] end end) = [] /\ pe_s s1 = pe_s s)).
  { destruct l as [l b a|g].
    - left. exists l. split; [reflexivity|]. destruct (ystep_eng c k s l b a s1 E1) as (_ & d & Ed & HC). assert (X : pe_s s1 = d) by (destruct HC as [[_ ->]|(r & g & p & _ & _ & _ & ->)]; reflexivity). rewrite X. split; [exact Ed|].
      intros ->. intros st Ho Hc. destruct (C1 st Ho Hc) as [Y1 Y2]. split; [exact Y1|]. pose proof (yi_l _ _ _ _ I) as Z. rewrite Y2 in Z. now destruct (p_act (pe_s s)).
    - destruct (ystep_pool c k s g s1 E1) as (_ & _ & _ & p & Ep & [(v & t & d & Ex & Em & Ed & ->)|(NE & ->)]).
      + left. exists (LPick (index_of t (p_pool (pe_s s)))). rewrite Ex. apply memb_in in Em. rewrite Em. split; [reflexivity|]. split; [exact Ed|discriminate].
      + right. split; [|reflexivity]. destruct (executes (pe_p s) g) as [[v t]|]; [|reflexivity]. destruct (memb t _) eqn:M; [|reflexivity]. apply memb_in in M. now destruct (NE v t eq_refl). }
  destruct X as [(x & -> & Ex & Mx)|[-> Ex]]; cbn [app].
  - pose proof (act_grows _ _ _ _ Ex) as AG. destruct (IH _ s1 s' I1 E C2 ltac:(lia)) as [A B]. cbn [prun p_disciplined]. apply (wide_cw _ w) in Ex; [|lia]. rewrite Ex. now split.
  - destruct (IH _ s1 s' I1 E C2 ltac:(rewrite Ex; lia)) as [A B]. rewrite Ex in A, B. now split.
Qed.

(** In every history of the engine and the pool, others using the pool as they like: what the engine did is a history of the engine on its own with enough
    workers, so that C10 holds of it; what the pool did is a history of the pool, which is given the elements by the calls of the matrix. *)
Theorem C111_parts : forall g c k ls s, par_cfg g (pc_c c) -> yrun c k peng_new ls = Some s -> careful c k peng_new ls ->
  (forall w, length ls <= w -> pexec (cw (pc_c c) w) (fast_part c k peng_new ls) (pe_s s))
  /\ pool_run k pool_new (pool_part2 c k peng_new ls) = Some (pe_p s)
  /\ (forall q t, In q (pool_part2 c k peng_new ls) -> In t (given1 q) -> In t (els g) -> exists q0 b a, In q0 (run_calls c) /\ q = with_choice b a q0).
Proof.
  intros g c k ls s Hc E C. pose proof (yrun_inv c k ls [] _ _ (yinv_new c k) E) as I. cbn [app] in I. split; [|split].
  - intros w L. apply (fast_ok c k w ls [] peng_new s); trivial. apply yinv_new.
  - exact (yi_p _ _ _ _ I).
  - intros q t H1 H2 H3. apply (yi_g _ _ _ _ I q t H1 H2). destruct Hc as [_ [-> _]]. exact H3.
Qed.
(** Every element starts at most once in a run; OK is returned only after each one ran and none failed; an error that is returned is the status of an element. *)
Theorem C111_runs : forall g c k ls s, par_cfg g (pc_c c) -> yrun c k peng_new ls = Some s -> careful c k peng_new ls ->
  starts_once (p_tr (pe_s s)) /\ incl (starts (p_tr (pe_s s))) (els g) /\
  (forall st, p_out (pe_s s) = Some st -> (0 <= code st)%Z -> st = st_default /\ all_ran g (p_tr (pe_s s)) /\ no_error (p_tr (pe_s s))) /\
  (forall st, p_out (pe_s s) = Some st -> (code st < 0)%Z -> exists e, In (GFinish e st) (p_tr (pe_s s))).
Proof.
  intros g c k ls s Hc E C. destruct (C111_parts g c k ls s Hc E C) as (P & _). assert (HW : par_cfg g (cw (pc_c c) (length ls))) by exact Hc.
  destruct (C10_parallel_run g _ _ _ HW (P _ (le_n _))) as (A & B & D & F). split; [exact A|]. split; [exact B|]. split; [|exact F]. intros st Ho Hs. destruct (D st Ho Hs) as (X1 & X2 & X3 & _). auto.
Qed.
(** The calls of a run keep the protocol of executeWithTid on any initialised pool: none of them is undefined, whoever else uses the pool; one blocks only when
    another caller has the queue. *)
Theorem C111_defined : forall c k ls s b a u t tid en lk,
  yrun c k peng_new ls = Some s -> next_call c (p_main (pe_s s)) b a = Some (LTid u t tid en lk) -> PoolModel.p_init (pe_p s) = true ->
  pool_step k (pe_p s) (LTid u t tid en lk) <> Undef
  /\ (pool_step k (pe_p s) (LTid u t tid en lk) = Off -> exists v, p_lk (pe_p s) (Z.to_nat tid) = Some v /\ v <> pc_me c).
Proof.
  intros c k ls s b a u t tid en lk E N P. pose proof (yrun_inv c k ls [] _ _ (yinv_new c k) E) as I. cbn [app] in I. destruct (next_push c _ _ _ _ N) as (e & l & q & Em & En & Eq).
  pose proof (yi_m _ _ _ _ I) as M. rewrite Em in M. destruct M as (pre & o & A & B & C). destruct (next_nth c e l pre A) as (q' & G1 & G2 & G3 & G4). rewrite G4 in En. assert (q' = q) by congruence. subst q'. rewrite G3 in B.
  assert (NS : forall t i x y, q <> LSubmit t i x y) by (intros ? ? ? ? ->; discriminate). assert (Q : q = LTid u t tid en lk) by (destruct q; try discriminate; now symmetry). rewrite Q in B.
  split; [rewrite Eq; exact (own_defined k (pc_me c) o q _ b a _ ltac:(rewrite Q; exact B) C P NS)|]. cbn [proto] in B. destruct B as (i & -> & -> & B). cbn [pool_step]. destruct ((0 <=? Z.of_nat i)%Z && (Z.of_nat i <? Z.of_nat (c_def k))%Z) eqn:R; [|discriminate]. rewrite P. cbn [negb]. rewrite Nat2Z.id.
  destruct lk.
  - destruct B as (-> & -> & _). cbn [andb]. destruct (p_lk (pe_p s) i) as [v|] eqn:L; [|discriminate]. intros _. exists v. split; [reflexivity|]. intros ->. apply C in L as [L _]. discriminate.
  - destruct B as (-> & _). rewrite Bool.andb_false_r. assert (L : p_lk (pe_p s) i = Some (pc_me c)) by (apply C; split; [reflexivity|]; apply Bool.andb_true_iff in R as [_ R]; apply Z.ltb_lt in R; lia). rewrite L, Nat.eqb_refl. discriminate.
Qed.
(** Outside the loop that gives the elements to the pool the caller has no queue locked; it opens and closes its batches itself. *)
Theorem C111_unlocked : forall c k ls s, yrun c k peng_new ls = Some s -> (forall l, p_main (pe_s s) <> QPush l) -> forall i, p_lk (pe_p s) i <> Some (pc_me c).
Proof.
  intros c k ls s E N. pose proof (yrun_inv c k ls [] _ _ (yinv_new c k) E) as I. pose proof (yi_m _ _ _ _ I) as M. unfold cut in M. destruct (p_main (pe_s s)) as [| | |l| | | | | | |] eqn:Em; try exact M. now destruct (N l).
Qed.
(** Neither hinders the other: what others do with the pool and what its threads do is possible whenever the pool alone would do it, except that a thread inside
    the task of an element first does that. *)
Theorem C111_taken : forall g c k ls s q p, par_cfg g (pc_c c) -> yrun c k peng_new ls = Some s -> pool_step k (pe_p s) q = Next p ->
  inside (pe_who s) q = false -> (forall t, In t (given1 q) -> ~ In t (els g)) -> (forall t tid en lk, q <> LTid (pc_me c) t tid en lk) ->
  exists s', ystep c k s (YPool q) = Some s' /\ pe_p s' = p.
Proof.
  intros g c k ls s q p Hc E Ep IG GV NT. pose proof (yrun_inv c k ls [] _ _ (yinv_new c k) E) as I. apply (pool_free c k _ s q p I); trivial. destruct Hc as [_ [-> _]]. exact GV.
Qed.
(** A row of several elements is executed by the thread with the number of the row, or one that may steal from it, whatever the bindings of its elements; an
    element that is alone in its row by the thread its binding asks for. Rows are numbered from 0. *)
Theorem C111_where : forall g c k ls s l s' e, par_cfg g (pc_c c) -> yrun c k peng_new ls = Some s -> ystep c k s l = Some s' -> p_tr (pe_s s') = p_tr (pe_s s) ++ [GStart e] ->
  exists w i row, body_in s l = Some w /\ nth_error (p_rows (pc_c c)) i = Some row /\ In e row /\
    (2 <= length row -> i < c_def k -> near k w i) /\ (length row = 1 -> obeys k (pc_bind c e) w).
Proof.
  intros g c k ls s l s' e Hc R E T. pose proof (yrun_inv c k ls [] _ _ (yinv_new c k) R) as I. destruct l as [l b a|q].
  - destruct (ystep_eng c k s l b a s' E) as (NP & d & Ed & HC). assert (X : pe_s s' = d) by (destruct HC as [[_ ->]|(r & q & p & _ & _ & _ & ->)]; reflexivity). rewrite X in T. clear HC X.
    destruct l as [|r|i r|i|]; cbn [pstep] in Ed; try (now destruct (NP i)).
    + destruct (p_main (pe_s s)); try discriminate. injection Ed as <-. cbn in T. now destruct (p_tr (pe_s s)).
    + destruct (p_main (pe_s s)) as [| | |[|x l]|[|n]| | | | | |]; try discriminate; injection Ed as <-; now apply app_one_inv in T.
    + destruct (nth_error (p_act (pe_s s)) i) as [o|] eqn:En; [|discriminate]. destruct (pop_enabled _ o); [|discriminate]. destruct (pop_sem _ _ _ _ o r) as [[[[num st] tr] nx] nt] eqn:PS. injection Ed as <-. cbn [p_tr] in T.
      assert (O : o = PStart e).
      { destruct o; cbn [pop_sem] in PS; try (injection PS as _ _ <- _ _; first [now apply app_one_inv in T|apply app_inv_head in T; now inversion T]).
        all: repeat match type of PS with context [if ?x then _ else _] => destruct x end; try (injection PS as _ _ <- _ _; first [now apply app_one_inv in T|apply app_inv_head in T; now inversion T]). }
      subst o. destruct (yi_t _ _ _ _ I i (PStart e) e En eq_refl) as (w & W & (n & row & B)). exists w, n, row. split; [exact W|exact B].
    + destruct (p_main (pe_s s)); try discriminate. injection Ed as <-. now apply app_one_inv in T.
  - destruct (ystep_pool c k s q s' E) as (_ & _ & _ & p & _ & [(w & t & d & _ & _ & Ed & ->)|(_ & ->)]); cbn [pe_s] in T; [|now apply app_one_inv in T].
    cbn [pstep] in Ed. destruct (Nat.ltb _ _); [|discriminate]. destruct (nth_error _ _); [|discriminate]. injection Ed as <-. now apply app_one_inv in T.
Qed.
(** With stealing switched off it is that thread. *)
Theorem C111_own : forall g c k ls s l s' e i row, par_cfg g (pc_c c) -> no_stealing k ->
  nth_error (p_rows (pc_c c)) i = Some row -> In e row -> 2 <= length row -> i < c_def k ->
  yrun c k peng_new ls = Some s -> ystep c k s l = Some s' -> p_tr (pe_s s') = p_tr (pe_s s) ++ [GStart e] -> body_in s l = Some (Prim i).
Proof.
  intros g c k ls s l s' e i row Hc NS Hn He L Hi R E T. destruct (C111_where g c k ls s l s' e Hc R E T) as (w & n & row' & W & N & H & X & _).
  assert (n = i).
  { assert (ND : NoDup (concat (p_rows (pc_c c)))) by (destruct Hc as [Hwf [_ ->]]; apply Hwf). clear -ND Hn He N H. revert n i Hn N. induction (p_rows (pc_c c)) as [|r rows IH]; intros [|n] [|i] Hn N; cbn [nth_error concat] in *; try discriminate; trivial.
    - injection N as ->. exfalso. apply nth_error_In in Hn. apply (NoDup_app_iff row' (concat rows)) in ND as (_ & _ & F). apply (F e H). apply in_concat. now exists row.
    - injection Hn as ->. exfalso. apply nth_error_In in N. apply (NoDup_app_iff row (concat rows)) in ND as (_ & _ & F). apply (F e He). apply in_concat. now exists row'.
    - f_equal. apply (NoDup_app_iff r (concat rows)) in ND as (_ & ND & _). now apply (IH ND). }
  subst n. assert (row' = row) by congruence. subst row'. destruct (X L Hi) as (j & d & -> & Hj & Hd & D). rewrite W. f_equal. f_equal. assert (d = 0) as ->.
  { destruct D as [D|D]; [exact D|]. destruct NS as [NS|NS]; [lia|]. rewrite NS in D. lia. }
  rewrite Nat.add_0_r, Nat.mod_small in Hd by exact Hj. exact Hd.
Qed.
(** After a run that returned OK no task of an element is anywhere in the pool. *)
Theorem C111_nothing_left : forall g c k ls s st e, par_cfg g (pc_c c) -> yrun c k peng_new ls = Some s -> careful c k peng_new ls ->
  p_out (pe_s s) = Some st -> (0 <= code st)%Z -> In e (els g) -> ~ in_pool (pe_p s) e.
Proof.
  intros g c k ls s st e Hc E C Ho Hs He. destruct (C111_parts g c k ls s Hc E C) as (P & _). assert (HW : par_cfg g (cw (pc_c c) (length ls))) by exact Hc.
  destruct (C10_parallel_run g _ _ _ HW (P _ (le_n _))) as (_ & _ & D & _). destruct (D st Ho Hs) as (_ & _ & _ & Q). pose proof (yrun_inv c k ls [] _ _ (yinv_new c k) E) as I. cbn [app] in I.
  assert (He' : In e (p_els (pc_c c))) by (destruct Hc as [_ [-> _]]; exact He). pose proof (yi_c _ _ _ _ I e He') as X. rewrite Q in X. cbn [count_occ] in X. unfold census in X.
  destruct (pool_run_inv k _ _ _ (pinv_new k) (yi_p _ _ _ _ I)) as [PI _]. unfold in_pool. intros [H|[H|[(i & H)|(j & H)]]].
  - apply cnt_in in H. lia.
  - change (In e (map ptask (p_prio (pe_p s)))) in H. apply cnt_in in H. lia.
  - destruct (Nat.lt_ge_cases i (c_def k)) as [L|L]; [|destruct (iv_prim _ _ PI i L) as [Z1 Z2]; rewrite Z1, Z2 in H; destruct H as [H|H]; exact H].
    assert (Hi : In i (seq 0 (c_def k))) by (apply in_seq; lia). destruct H as [H|H]; apply cnt_in in H.
    + pose proof (in_sum (fun i => cnt e (p_wsq (pe_p s) i)) i _ Hi). cbn beta in *. lia.
    + pose proof (in_sum (fun i => cnt e (p_held (p_pt (pe_p s) i))) i _ Hi). cbn beta in *. lia.
  - destruct (Nat.lt_ge_cases j (p_nsec (pe_p s))) as [L|L]; [|rewrite (iv_sec _ _ PI j L) in H; exact H].
    assert (Hj : In j (seq 0 (p_nsec (pe_p s)))) by (apply in_seq; lia). apply cnt_in in H. pose proof (in_sum (fun j => cnt e (s_held (p_st (pe_p s) j))) j _ Hj). cbn beta in *. lia.
Qed.
Lemma ygood_start g c k ls s : par_cfg g (pc_c c) -> yrun c k peng_new ls = Some s -> careful c k peng_new ls -> mine_only c k (pe_p s) -> ylong_ok c k (pe_p s) -> ygo c k s.
Proof.
  intros Hc E C R L. pose proof (yrun_inv c k ls [] _ _ (yinv_new c k) E) as I. cbn [app] in I. destruct (C111_parts g c k ls s Hc E C) as (P & Q & _). split.
  - constructor; trivial.
    + eexists. exact I.
    + apply (PInv_cw (pc_c c) (length ls)). assert (HW : par_cfg g (cw (pc_c c) (length ls))) by exact Hc. exact (pexec_inv g _ _ _ HW (P _ (le_n _))).
    + exact (live_run k _ _ _ (live_new k) Q).
    + now destruct (pool_run_inv k _ _ _ (pinv_new k) Q).
  - apply (ywho_run c k ls peng_new s); trivial; [apply pinv_new|split; [constructor|easy]|eexists; exact (yinv_new c k)].
Qed.
Lemma careful_app c k l2 : forallb ymay l2 = true -> forall l1 s, careful c k s l1 -> careful c k s (l1 ++ l2).
Proof.
  intros A. induction l1 as [|l l1 IH]; intros s C; cbn [app careful] in *.
  - clear C. revert s A. induction l2 as [|l l2 IH]; intros s A; cbn [careful forallb] in *; [exact Logic.I|]. apply Bool.andb_true_iff in A as [A1 A2]. split; [destruct l as [[]|]; trivial; discriminate|]. destruct (ystep c k s l); [now apply IH|exact Logic.I].
  - destruct C as [C1 C2]. split; [exact C1|]. destruct (ystep c k s l); [now apply IH|exact Logic.I].
Qed.
Lemma out_step c d l d' : l <> LRun -> pstep c d l = Some d' -> p_main d <> QIdle \/ p_out d <> None -> p_main d' <> QIdle \/ p_out d' <> None.
Proof.
  intros N E H. destruct l as [|r|i r|i|]; cbn [pstep] in E; [congruence| | | |].
  - destruct (p_main d) as [| | |[|e l]|[|n]| | | | | |]; try discriminate; injection E as <-; cbn [p_main p_out]; try (left; discriminate); try (right; discriminate); left; repeat (match goal with |- context [if ?x then _ else _] => destruct x end); discriminate.
  - destruct (nth_error (p_act d) i) as [o|]; [|discriminate]. destruct (pop_enabled _ o); [|discriminate]. destruct (pop_sem _ _ _ _ o r) as [[[[num st] tr] nx] nt]. injection E as <-. cbn [p_main p_out]. destruct H as [H|H]; [left|now right]. destruct nt, (p_main d); cbn; congruence.
  - destruct (Nat.ltb _ _); [|discriminate]. destruct (nth_error (p_pool d) i); [|discriminate]. injection E as <-. exact H.
  - destruct (p_main d); try discriminate. injection E as <-. left. discriminate.
Qed.
Lemma yout_run c k : forall ls s s', forallb ymay ls = true -> yrun c k s ls = Some s' -> p_main (pe_s s) <> QIdle \/ p_out (pe_s s) <> None -> p_main (pe_s s') <> QIdle \/ p_out (pe_s s') <> None.
Proof.
  induction ls as [|l ls IH]; intros s s' A E H; cbn [yrun forallb] in *; [now injection E as <-|]. apply Bool.andb_true_iff in A as [A1 A2]. destruct (ystep c k s l) as [s1|] eqn:E1; [|discriminate]. apply (IH s1 s' A2 E).
  destruct (may_cases c k s l s1 A1 E1) as [(dl & N & _ & D & _)|(q & _ & _ & -> & _)]; [exact (out_step _ _ dl _ N D H)|exact H].
Qed.
(** From any reachable state in which run is active on a pool that is in order: for every number of disturbances there is a number of rounds after which,
    whatever the schedule and whatever the elements answer, run has returned. Without an error it returned OK and every element has run; with one it
    returned an error. *)
Theorem C111_returns : forall g c k ls s, par_cfg g (pc_c c) -> batches_ok k -> 0 < c_def k ->
  yrun c k peng_new ls = Some s -> careful c k peng_new ls -> p_main (pe_s s) <> QIdle -> mine_only c k (pe_p s) -> ylong_ok c k (pe_p s) ->
  forall m, exists B, forall n s', yrounds c k s n m s' -> B <= n ->
    p_main (pe_s s') = QIdle /\ exists st, p_out (pe_s s') = Some st
      /\ (no_error (p_tr (pe_s s')) -> st = st_default /\ all_ran g (p_tr (pe_s s')))
      /\ (~ no_error (p_tr (pe_s s')) -> (code st < 0)%Z).
Proof.
  intros g c k ls s Hc HB Hk E C NI R L m. pose proof (okc_of g c Hc) as K. pose proof (ygood_start g c k ls s Hc E C R L) as [G _].
  exists (S (S (ytotal c k s + 19 * m) * top_rank k)). intros n s' F LE. destruct (yrounds_run c k _ _ _ _ F) as (l2 & A2 & E2).
  assert (EM : p_main (pe_s s') = QIdle).
  { destruct (ydue_exists c k s K Hk G NI) as (r & a & D). apply (yrounds_end c k K HB Hk s n m s' F r a G D). pose proof (yrank_small k _ _ _ D). nia. }
  split; [exact EM|]. destruct (yout_run c k l2 s s' A2 E2 (or_introl NI)) as [X|Ho]; [congruence|]. destruct (p_out (pe_s s')) as [st|] eqn:Eo; [|congruence]. exists st. split; [reflexivity|].
  assert (E3 : yrun c k peng_new (ls ++ l2) = Some s') by (now rewrite (yrun_cat c k ls _ _ _ E)). destruct (C111_runs g c k _ s' Hc E3 (careful_app c k l2 A2 ls _ C)) as (_ & _ & X & Y). split.
  - intros N. destruct (Z.lt_ge_cases (code st) 0) as [Z|Z]; [|destruct (X st Eo Z) as (X1 & X2 & _); now split]. destruct (Y st Eo Z) as (e & He). apply N in He. lia.
  - intros N. destruct (Z.lt_ge_cases (code st) 0) as [Z|Z]; [exact Z|]. destruct (X st Eo Z) as (_ & _ & X3). contradiction.
Qed.
(** The rounds exist: no one of them can be kept from acting. There is no deadlock between the engine and the pool, and no queue stays locked. *)
Theorem C111_rounds_exist : forall g c k ls s n, par_cfg g (pc_c c) -> 0 < c_max k ->
  yrun c k peng_new ls = Some s -> careful c k peng_new ls -> mine_only c k (pe_p s) -> ylong_ok c k (pe_p s) ->
  exists s', yrounds c k s n 0 s'.
Proof. intros g c k ls s n Hc M E C R L. apply (yrounds_exist c k (okc_of g c Hc) M n s). exact (ygood_start g c k ls s Hc E C R L). Qed.
Lemma ystuck_step c k s l s' t : pinv k (pe_p s) -> ymay l = true -> ystep c k s l = Some s' -> In t (map ptask (p_prio (pe_p s))) -> (forall j, p_st (pe_p s) j = SExit) ->
  In t (map ptask (p_prio (pe_p s'))) /\ forall j, p_st (pe_p s') j = SExit.
Proof.
  intros PI A E T S. assert (X : forall p g, pool_step k (pe_p s) g = Next p -> (works g = true \/ exists u x tid en lk, g = LTid u x tid en lk) -> In t (map ptask (p_prio p)) /\ forall j, p_st p j = SExit).
  { intros p g P W. split.
    - destruct g as [|u idx b a|u x tid en lk| | | |i ok|j ok| | | |]; try (destruct W as [W|(? & ? & ? & ? & ? & W)]; discriminate); cbn [pool_step] in P.
      + destruct (dispatch k (p_cur (pe_p s)) idx b) as [[r cur]|]; [|discriminate]. destruct (dest k r).
        * destruct (PoolModel.p_init (pe_p s)); [|discriminate]. destruct (p_lk (pe_p s) i); [discriminate|]. injection P as <-. exact T.
        * injection P as <-. exact T.
        * unfold push_prio in P. destruct (memb _ _); [discriminate|]. injection P as <-. pc. rewrite map_app. apply in_or_app. now left.
      + repeat match type of P with context [if ?x then _ else _] => destruct x end; try discriminate; repeat match type of P with context [match ?x with Some _ => _ | None => _ end] => destruct x end; try discriminate;
          repeat match type of P with context [if ?x then _ else _] => destruct x end; try discriminate; injection P as <-; exact T.
      + unfold prim_step in P. destruct (p_pt (pe_p s) i) as [| |[|n]|[|x r]|]; try discriminate; try (injection P as <-; exact T).
        * destruct (if ok then p_lk (pe_p s) i else Some 0), (own_take k (p_wsq (pe_p s) i)) as [[|x a] b]; injection P as <-; exact T.
        * destruct (nth_error (targets k i) n) as [m|].
          -- destruct (if ok then p_lk (pe_p s) m else Some 0), (steal_take k (p_wsq (pe_p s) m)) as [[|x a] b]; injection P as <-; exact T.
          -- destruct ok, (pool_take k (p_q (pe_p s))) as [[|x a] b]; injection P as <-; exact T.
      + unfold sec_step in P. rewrite S in P. discriminate.
    - intros j. destruct W as [W|(u & x & tid & en & lk & ->)].
      + destruct (nsec_step k _ _ _ P) as (_ & _ & Y). rewrite Y; [apply S|exact W|]. intros ok ->. cbn [pool_step] in P. unfold sec_step in P. rewrite S in P. discriminate.
      + cbn [pool_step] in P. repeat match type of P with context [if ?x then _ else _] => destruct x end; try discriminate; repeat match type of P with context [match ?x with Some _ => _ | None => _ end] => destruct x end; try discriminate;
          repeat match type of P with context [if ?x then _ else _] => destruct x end; try discriminate; injection P as <-; apply S. }
  destruct (may_cases c k s l s' A E) as [(dl & _ & _ & _ & [->|[(q & b & a & IQ & P & _)|(g & _ & W & P)]])|(g & _ & W & _ & _ & P & _)].
  - now split.
  - apply (X _ _ P). destruct (calls_from _ _ _ _ _ IQ) as (j & row & e & _ & _ & [(_ & en & lk & ->)|(_ & ->)]); [right; repeat eexists|now left].
  - apply (X _ _ P). now left.
  - apply (X _ _ P). now left.
Qed.
Lemma ystuck_run c k t : forall ls hp s s', yinv c k hp s -> forallb ymay ls = true -> yrun c k s ls = Some s' -> In t (map ptask (p_prio (pe_p s))) -> (forall j, p_st (pe_p s) j = SExit) -> In t (map ptask (p_prio (pe_p s'))).
Proof.
  induction ls as [|l ls IH]; intros hp s s' I A E T S; cbn [yrun forallb] in *; [now injection E as <-|]. apply Bool.andb_true_iff in A as [A1 A2].
  destruct (ystep c k s l) as [s1|] eqn:E1; [|discriminate]. destruct (pool_run_inv k _ _ _ (pinv_new k) (yi_p _ _ _ _ I)) as [PI _]. destruct (ystuck_step c k s l s1 t PI A1 E1 T S) as [T1 S1]. exact (IH _ s1 s' (ystep_inv c k hp s l s1 I E1) A2 E T1 S1).
Qed.
(** Without the condition on long tasks it is false: an element that is alone in its row and bound to the secondary threads, on a pool that has none, keeps run
    from returning as long as no element reports an error, whatever the threads of the pool do. *)
Theorem C111_long_needed : forall g c k ls s t ls' s', par_cfg g (pc_c c) -> yrun c k peng_new ls = Some s -> careful c k peng_new ls ->
  In t (els g) -> In t (map ptask (p_prio (pe_p s))) -> (forall j, p_st (pe_p s) j = SExit) ->
  forallb ymay ls' = true -> yrun c k s ls' = Some s' -> no_error (p_tr (pe_s s')) -> p_main (pe_s s') <> QIdle.
Proof.
  intros g c k ls s t ls' s' Hc E C He T S A E2 N EM. pose proof (yrun_inv c k ls [] _ _ (yinv_new c k) E) as I. pose proof (ystuck_run c k t ls' _ s s' I A E2 T S) as T'.
  assert (E3 : yrun c k peng_new (ls ++ ls') = Some s') by (now rewrite (yrun_cat c k ls _ _ _ E)). pose proof (careful_app c k ls' A ls _ C) as C3.
  destruct (p_out (pe_s s')) as [st|] eqn:Eo.
  - assert (Z : (0 <= code st)%Z) by (destruct (Z.lt_ge_cases (code st) 0) as [Z|Z]; [destruct (C111_runs g c k _ s' Hc E3 C3) as (_ & _ & _ & Y); destruct (Y st Eo Z) as (e & X); apply N in X; lia|exact Z]).
    apply (C111_nothing_left g c k _ s' st t Hc E3 C3 Eo Z He). right. now left.
  - destruct (C111_parts g c k _ s' Hc E3 C3) as (P & _). assert (HW : par_cfg g (cw (pc_c c) (length (ls ++ ls')))) by exact Hc. pose proof (pexec_inv g _ _ _ HW (P _ (le_n _))) as PV. pose proof (i_phase _ _ PV) as Q. unfold pphase_ok in Q. rewrite EM, Eo in Q. destruct Q as (_ & _ & Q).
    pose proof (yrun_inv c k _ [] _ _ (yinv_new c k) E3) as I3. assert (He' : In t (p_els (pc_c c))) by (destruct Hc as [_ [-> _]]; exact He). pose proof (yi_c _ _ _ _ I3 t He') as X. unfold census in X. apply cnt_in in T'.
    assert (DP : In t (p_pool (pe_s s'))) by (apply cnt_in; lia). assert (F : In (PTest t) (bag (pe_s s'))) by (unfold bag; apply in_or_app; right; apply in_or_app; left; now apply in_map). rewrite Q in F. exact F.
Qed.

(** Five elements in rows of two on three threads that do not steal; element 4, alone in its row, is bound to thread 0; others use the pool too. *)
Definition c111_k := mkCfg 3 1 4 0 2 2 2 false false.
Definition c111_none := mkCfg 3 0 3 0 2 2 2 false false.
Definition c111_c (b : Z) : pecfg := mkPEC (mkPC (els indep_g) [[0; 1]; [2; 3]; [4]] 3 0) (fun e => if Nat.eqb e 4 then b else (-1)%Z) 7.
Definition c111_M := YEng (LMain st_default) false 0.
Definition c111_W i := YEng (LWork i st_default) false 0.
Definition c111_P i := YPool (LPrim i true).
Definition c111_1 : list ylabel :=
  [YPool LInit; YPool (LSubmit 77 0 false 0); YEng LRun false 0; c111_M; c111_M; c111_M; c111_M; c111_M; c111_M; c111_M].
Definition c111_2 := c111_1 ++ [c111_P 1; c111_P 1; c111_P 1; c111_W 0].
Definition c111_err := c111_2 ++ [c111_W 0; YEng (LWork 0 (mkStatus (-1) "no")) false 0; c111_W 0; c111_W 0; c111_W 0; c111_W 0; c111_M; c111_M; c111_M; c111_M; c111_M; c111_M].
(** A run in the middle meets what is asked, and returns OK in some schedule; a run that returns the error of element 2 leaves tasks of others in the pool, so that
    OK cannot be left out of C111_nothing_left; on a pool without secondary threads element 4, bound to them, waits. *)
Example C111_nonvacuous :
  par_cfg indep_g (pc_c (c111_c 0)) /\ analysis_dag_type indep_g (fun _ => (-1)%Z) = AllParallel /\ parallel_matrix 3 (els indep_g) = Some (Some (p_rows (pc_c (c111_c 0)))) /\ batches_ok c111_k /\ no_stealing c111_k
  /\ (exists s s1, yrun (c111_c 0) c111_k peng_new c111_2 = Some s /\ careful (c111_c 0) c111_k peng_new c111_2 /\ p_main (pe_s s) <> QIdle /\ mine_only (c111_c 0) c111_k (pe_p s) /\ ylong_ok (c111_c 0) c111_k (pe_p s)
        /\ ystep (c111_c 0) c111_k s (c111_W 0) = Some s1 /\ p_tr (pe_s s1) = p_tr (pe_s s) ++ [GStart 2] /\ body_in s (c111_W 0) = Some (Prim 1)
        /\ exists s' n st, yrounds (c111_c 0) c111_k s n 0 s' /\ p_main (pe_s s') = QIdle /\ p_out (pe_s s') = Some st)
  /\ (exists s q, yrun (c111_c 0) c111_k peng_new (firstn 6 c111_1) = Some s /\ next_call (c111_c 0) (p_main (pe_s s)) false 0 = Some q /\ q = LTid 7 1 0 true false /\ PoolModel.p_init (pe_p s) = true /\ p_lk (pe_p s) 0 = Some 7)
  /\ (exists s, yrun (c111_c 0) c111_k peng_new c111_err = Some s /\ careful (c111_c 0) c111_k peng_new c111_err /\ p_out (pe_s s) = Some (mkStatus (-1) "no") /\ in_pool (pe_p s) 3)
  /\ (exists s, yrun (c111_c (-101)) c111_none peng_new c111_1 = Some s /\ In 4 (els indep_g) /\ In 4 (map ptask (p_prio (pe_p s))) /\ forall j, p_st (pe_p s) j = SExit).
Proof.
  assert (HC : par_cfg indep_g (pc_c (c111_c 0))) by (split; [exact indep_wf|split; reflexivity]).
  assert (CF : forall b k ls s0, (forall x y, ~ In (YEng LRun x y) ls) -> careful (c111_c b) k s0 ls).
  { intros b k. induction ls as [|l ls IH]; intros s0 H; cbn [careful]; [exact Logic.I|]. split; [destruct l as [[] x y|]; trivial; exfalso; apply (H x y); now left|]. destruct (ystep _ _ _ _); [apply IH; intros x y F; apply (H x y); now right|exact Logic.I]. }
  assert (C2 : forall b k tl, (forall x y, ~ In (YEng LRun x y) tl) -> careful (c111_c b) k peng_new ([YPool LInit; YPool (LSubmit 77 0 false 0); YEng LRun false 0] ++ tl)).
  { intros b k tl H. cbn [app careful]. split; [exact Logic.I|]. destruct (ystep (c111_c b) k peng_new (YPool LInit)) as [s1|] eqn:E1; [|exact Logic.I]. split; [exact Logic.I|]. destruct (ystep _ _ s1 _) as [s2|] eqn:E2; [|exact Logic.I]. split.
    - intros st Ho. exfalso. assert (p_out (pe_s s1) = None) by (cbn in E1; injection E1 as <-; reflexivity). destruct (ystep_pool _ _ _ _ _ E2) as (_ & _ & _ & p & _ & [(w & t & d & X & _)|(_ & ->)]); [discriminate|]. cbn [pe_s] in Ho. congruence.
    - destruct (ystep _ _ s2 _); [now apply CF|exact Logic.I]. }
  split; [exact HC|]. split; [vm_compute; reflexivity|]. split; [vm_compute; reflexivity|]. split; [discriminate|]. split; [now left|]. split; [|split; [|split]].
  - assert (X : exists s s1, yrun (c111_c 0) c111_k peng_new c111_2 = Some s /\ p_main (pe_s s) <> QIdle /\ mine_only (c111_c 0) c111_k (pe_p s) /\ ylong_ok (c111_c 0) c111_k (pe_p s)
        /\ ystep (c111_c 0) c111_k s (c111_W 0) = Some s1 /\ p_tr (pe_s s1) = p_tr (pe_s s) ++ [GStart 2] /\ body_in s (c111_W 0) = Some (Prim 1)).
    { eexists. eexists. split; [vm_compute; reflexivity|]. cbn [pe_s pe_p p_main p_tr pe_who]. split; [discriminate|]. split; [|split; [|split; [vm_compute; reflexivity|split; reflexivity]]].
      - split; [reflexivity|]. split; [reflexivity|]. split; [|reflexivity]. intros i u F. destruct i as [|[|[|i]]]; discriminate F.
      - left. exists 0. split; [now left|reflexivity]. }
    destruct X as (s & s1 & E & X1 & X2 & X3 & X4 & X5 & X6). assert (C : careful (c111_c 0) c111_k peng_new c111_2) by (apply C2; intros x y F; cbn in F; repeat (destruct F as [F|F]; [discriminate|]); exact F).
    exists s, s1. split; [exact E|]. split; [exact C|]. split; [exact X1|]. split; [exact X2|]. split; [exact X3|]. split; [exact X4|]. split; [exact X5|]. split; [exact X6|].
    destruct (C111_returns indep_g (c111_c 0) c111_k c111_2 s HC) with (m := 0) as (B & HB); trivial; [discriminate|cbn; lia|].
    destruct (C111_rounds_exist indep_g (c111_c 0) c111_k c111_2 s B HC) as (s' & F); trivial; [cbn; lia|]. destruct (HB B s' F (le_n _)) as (Y & st & Z & _). exists s', B, st. split; [exact F|]. split; [exact Y|exact Z].
  - eexists. exists (LTid 7 1 0 true false). split; [vm_compute; reflexivity|]. cbn [pe_s pe_p p_main]. split; [vm_compute; reflexivity|]. split; [reflexivity|]. split; vm_compute; reflexivity.
  - eexists. split; [vm_compute; reflexivity|]. split; [apply C2; intros x y F; cbn in F; repeat (destruct F as [F|F]; [discriminate|]); exact F|]. cbn [pe_s pe_p p_out]. split; [reflexivity|]. right. right. left. exists 1. left. vm_compute. now left.
  - eexists. split; [vm_compute; reflexivity|]. split; [do 4 right; now left|]. split; [vm_compute; auto|]. intros j. reflexivity.
Qed.

Print Assumptions C111_parts.
Print Assumptions C111_runs.
Print Assumptions C111_defined.
Print Assumptions C111_unlocked.
Print Assumptions C111_taken.
Print Assumptions C111_where.
Print Assumptions C111_own.
Print Assumptions C111_nothing_left.
Print Assumptions C111_returns.
Print Assumptions C111_rounds_exist.
Print Assumptions C111_long_needed.
