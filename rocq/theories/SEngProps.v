(** C110: runs of the static engine on the pool *)
From Verif Require Import GraphSpec SEngSpec StaticProofs TopoProofs GraphProps SEngLeft PoolProofs PoolLive BindProofs BindProps EngPoolProofs EngPoolProps EngLiveProofs EngFairProofs SEngProofs SEngLive SEngFair.
From Coq Require Import Lia Permutation.
Local Open Scope nat_scope.
Local Open Scope list_scope.

Lemma lay_of g c : wf g -> acyclic g -> static_setup g = Some (Some (sc_mat c)) -> layering g (sc_mat c).
Proof. intros Hwf Ha S. destruct (static_setup_spec g Hwf) as [H _]. destruct (H Ha) as (m & E & L). rewrite S in E. now injection E as ->. Qed.
Lemma stat1_ok c k s l s' : l <> XRun -> xstep c k s l = Some s' -> srun (se_s s) (stat1 c s l) = Some (se_s s').
Proof.
  intros N E. destruct l as [|r b a|w r|g]; [congruence| | |]; cbn [xstep stat1] in *.
  - destruct (sstep (se_s s) (SMain r)) as [d|] eqn:D; [|discriminate]. cbn [srun]. rewrite D. destruct (commits (se_s s)); [destruct (pool_step k (se_p s) _); try discriminate|]; now injection E as <-.
  - destruct (who_has w (se_who s)) as [e|]; [|discriminate]. destruct (sstep (se_s s) (SFinish e r)) as [d|] eqn:D; [|discriminate]. cbn [srun]. rewrite D. now injection E as <-.
  - destruct (existsb _ _ || _); [discriminate|]. destruct (pool_step k (se_p s) g); try discriminate. destruct (executes (se_p s) g) as [[w t]|]; [destruct (memb t _)|]; try (now injection E as <-).
    destruct (sstep (se_s s) (SStart t)) as [d|] eqn:D; [|discriminate]. cbn [srun]. rewrite D. now injection E as <-.
Qed.
Lemma stat_ok c k : forall ls hs s s', xrun c k s ls = Some s' -> In XRun ls \/ srun (s_init (sc_inl c) (sc_mat c)) hs = Some (se_s s) -> srun (s_init (sc_inl c) (sc_mat c)) (stat_part c k s ls hs) = Some (se_s s').
Proof.
  induction ls as [|l ls IH]; intros hs s s' E H; cbn [xrun stat_part] in *; [injection E as <-; now destruct H|]. destruct (xstep c k s l) as [s1|] eqn:E1; [|discriminate]. apply (IH _ s1 s' E).
  destruct l as [|r b a|w r|g]; [right; cbn [xstep] in E1; destruct (s_out (se_s s)); [|discriminate]; now injection E1 as <-| | |];
    (destruct H as [[H|H]|H]; [discriminate|now left|right]; rewrite srun_app, H; refine (stat1_ok c k s _ s1 _ E1); discriminate).
Qed.
Lemma sinv_of c k g ls s : wf g -> layering g (sc_mat c) -> xrun c k seng_new ls = Some s -> In XRun ls -> exists con, sinv (sc_inl c) g (sc_mat c) (se_s s) con.
Proof.
  intros Hwf Hl E R. pose proof (stat_ok c k ls [] _ s E (or_introl R)) as S. exact (srun_inv _ g _ Hwf Hl _ _ [] _ (sinv_init _ g _) S).
Qed.
Lemma in_sum {A} (f : A -> nat) x : forall l, In x l -> f x <= sumf f l.
Proof. induction l as [|y l IH]; cbn [sumf]; [easy|]. intros [->|H]; [lia|]. specialize (IH H). lia. Qed.

(** In every history of the engine and the pool, others using the pool as they like: what the engine did since run was called last is a run of the static
    engine on its own, so that C05 and C08 hold of it; what the pool did is a history of the pool, which is given the elements with their index. *)
Theorem C110_parts : forall g c k ls s, wf g -> acyclic g -> static_setup g = Some (Some (sc_mat c)) ->
  xrun c k seng_new ls = Some s ->
  (In XRun ls -> srun (s_init (sc_inl c) (sc_mat c)) (stat_part c k seng_new ls []) = Some (se_s s))
  /\ pool_run k pool_new (xpool_part c k seng_new ls) = Some (se_p s)
  /\ (forall q t, In q (xpool_part c k seng_new ls) -> In t (given1 q) -> In t (els g) -> exists b a, q = LSubmit t (sc_bind c t) b a).
Proof.
  intros g c k ls s Hwf Ha S E. pose proof (lay_of g c Hwf Ha S) as Hl. pose proof (xrun_inv c k g Hwf Hl ls [] [] _ _ (xinv_new c k g) E) as I. cbn [app] in I. split; [|split].
  - intros R. exact (stat_ok c k ls [] _ s E (or_introl R)).
  - exact (xi_p _ _ _ _ _ _ I).
  - intros q t H1 H2 H3. apply (xi_g _ _ _ _ _ _ I q t H1 H2). eapply Permutation_in; [symmetry; apply Hl|exact H3].
Qed.
(** Neither hinders the other: what others do with the pool and what its threads do is possible whenever the pool alone would do it, except that a thread
    inside the task of an element first does that. *)
Theorem C110_taken : forall g c k ls s q p, wf g -> acyclic g -> static_setup g = Some (Some (sc_mat c)) ->
  xrun c k seng_new ls = Some s -> pool_step k (se_p s) q = Next p ->
  inside (map fst (se_who s)) q = false -> (forall t, In t (given1 q) -> ~ In t (els g)) ->
  exists s', xstep c k s (XPool q) = Some s' /\ se_p s' = p.
Proof.
  intros g c k ls s q p Hwf Ha S E Ep IG GV. pose proof (lay_of g c Hwf Ha S) as Hl. pose proof (xrun_inv c k g Hwf Hl ls [] [] _ _ (xinv_new c k g) E) as I. cbn [app] in I. cbn [xstep].
  replace (existsb (fun t => memb t (concat (sc_mat c))) (given1 q)) with false.
  2:{ symmetry. apply Bool.not_true_iff_false. intros H. apply existsb_exists in H as (t & H1 & H2). apply memb_in in H2. apply (GV t H1). eapply Permutation_in; [apply Hl|exact H2]. }
  rewrite IG, Ep. cbn [orb]. destruct (executes (se_p s) q) as [[w t]|] eqn:X; [destruct (memb t (concat (sc_mat c))) eqn:M|]; try (eexists; now split).
  apply memb_in in M. pose proof (xtaken c k g _ _ s q p w t I Ep X M) as T. apply remove1_some in T as (l & T). cbn [sstep]. rewrite T. eexists. now split.
Qed.
(** A thread inside an element can always finish it *)
Theorem C110_done : forall g c k ls s w r, wf g -> acyclic g -> static_setup g = Some (Some (sc_mat c)) ->
  xrun c k seng_new ls = Some s -> In w (map fst (se_who s)) -> exists e s', In (w, e) (se_who s) /\ xstep c k s (XDone w r) = Some s' /\ s_tr (se_s s') = s_tr (se_s s) ++ [GFinish e r].
Proof.
  intros g c k ls s w r Hwf Ha S E IN. pose proof (lay_of g c Hwf Ha S) as Hl. pose proof (xrun_inv c k g Hwf Hl ls [] [] _ _ (xinv_new c k g) E) as I. cbn [app] in I. destruct (who_has_some w _ IN) as (e & He).
  assert (R : exists l, remove1 e (s_running (se_s s)) = Some l).
  { apply remove1_some. pose proof (who_has_in _ _ _ He) as H. apply (in_map snd) in H. cbn in H. apply cnt_in in H. pose proof (xi_r _ _ _ _ _ _ I e). apply cnt_in. lia. }
  destruct R as (l & R). exists e. eexists. split; [now apply who_has_in|]. split; [cbn [xstep sstep]; rewrite He, R; reflexivity|reflexivity].
Qed.
Lemma starts_how g c k ls s l s' e : wf g -> acyclic g -> static_setup g = Some (Some (sc_mat c)) -> xrun c k seng_new ls = Some s -> xstep c k s l = Some s' -> s_tr (se_s s') = s_tr (se_s s) ++ [GStart e] ->
  (xstarts_in s l = None /\ sc_inl c e = true) \/ (exists w, xstarts_in s l = Some w /\ obeys k (sc_bind c e) w /\ sc_inl c e = false).
Proof.
  intros Hwf Ha S R E T. pose proof (lay_of g c Hwf Ha S) as Hl. pose proof (xrun_inv c k g Hwf Hl ls [] [] _ _ (xinv_new c k g) R) as I. cbn [app] in I.
  destruct l as [|r b a|w r|q]; cbn [xstep] in E.
  - destruct (s_out (se_s s)); [|discriminate]. injection E as <-. cbn in T. now destruct (s_tr (se_s s)).
  - left. split; [reflexivity|]. destruct (sstep (se_s s) (SMain r)) as [d|] eqn:D; [|discriminate]. assert (ED : se_s s' = d) by (destruct (commits (se_s s)); [destruct (pool_step k (se_p s) _); try discriminate|]; now injection E as <-).
    rewrite ED in T. destruct (sstep_tr _ _ _ D) as (x & X & Y). rewrite X in T. apply app_inv_head in T. destruct (Y e) as [F|(r0 & m & _ & EM)]; [rewrite T; now left|discriminate|].
    destruct (xi_s _ _ _ _ _ _ I) as [F|(_ & con & SI)]; [rewrite F in EM; discriminate|].
    pose proof (si_prog _ _ _ _ _ SI) as P. destruct (prog_w (sc_inl c) e (sc_mat c)) as (_ & W & _). destruct (sc_inl c e); trivial. fold (prog (sc_inl c) (sc_mat c)) in W. rewrite P, sumf_app, EM in W. cbn [sumf w_ms] in W. rewrite Nat.eqb_refl in W. cbn in W. lia.
  - destruct (who_has w (se_who s)) as [x|]; [|discriminate]. cbn [sstep] in E. destruct (remove1 x (s_running (se_s s))); [|discriminate]. injection E as <-. cbn in T. apply app_inv_head in T. discriminate.
  - right. destruct (existsb _ _ || _); [discriminate|]. destruct (pool_step k (se_p s) q) as [| |p] eqn:Ep; try discriminate. cbn [xstarts_in].
    destruct (executes (se_p s) q) as [[w t]|] eqn:X; [destruct (memb t (concat (sc_mat c))) eqn:M|]; try (injection E as <-; now apply app_one_inv in T).
    apply memb_in in M. destruct (sstep (se_s s) (SStart t)) as [d|] eqn:D; [|discriminate]. injection E as <-. cbn [se_s] in T. pose proof (xtaken c k g _ _ s q p w t I Ep X M) as Q. pose proof (xallowed c k g _ _ s q p w t I Ep X M) as O.
    cbn [sstep] in D. destruct (remove1 t (s_queue (se_s s))); [|discriminate]. injection D as <-. cbn in T. apply app_inv_head in T. injection T as ->. exists w. split; [reflexivity|]. split; [exact O|].
    destruct (xi_s _ _ _ _ _ _ I) as [F|(_ & con & SI)]; [rewrite F in Q; contradiction|]. apply (si_inl _ _ _ _ _ SI). left. now apply StaticProofs.cnt_in.
Qed.
(** An element is executed by the thread that called run exactly when it is a macro without a binding index; every other element is executed by a thread
    of the pool: for the index of a thread by that thread or one that may steal from it, for the index of long tasks by a secondary thread. *)
Theorem C110_where : forall g c k ls s l s' e, wf g -> acyclic g -> static_setup g = Some (Some (sc_mat c)) ->
  xrun c k seng_new ls = Some s -> xstep c k s l = Some s' -> s_tr (se_s s') = s_tr (se_s s) ++ [GStart e] ->
  (sc_macro c e = true /\ sc_bind c e = (-1)%Z -> xstarts_in s l = None)
  /\ (sc_macro c e = false \/ sc_bind c e <> (-1)%Z -> exists w, xstarts_in s l = Some w /\ obeys k (sc_bind c e) w).
Proof.
  intros g c k ls s l s' e Hwf Ha S R E T. unfold sc_inl in *. destruct (starts_how g c k ls s l s' e Hwf Ha S R E T) as [[X Y]|(w & X & O & Y)]; unfold sc_inl in Y.
  - apply Bool.andb_true_iff in Y as [Y1 Y2]. apply Z.eqb_eq in Y2. split; [easy|]. intros [H|H]; congruence.
  - split; [|intros _; now exists w]. intros [H1 H2]. rewrite H1, H2 in Y. discriminate.
Qed.
(** With stealing switched off it is that thread. *)
Theorem C110_own : forall g c k ls s l s' e, wf g -> acyclic g -> static_setup g = Some (Some (sc_mat c)) ->
  no_stealing k -> is_thread k (sc_bind c e) ->
  xrun c k seng_new ls = Some s -> xstep c k s l = Some s' -> s_tr (se_s s') = s_tr (se_s s) ++ [GStart e] ->
  xstarts_in s l = Some (Prim (Z.to_nat (sc_bind c e))).
Proof.
  intros g c k ls s l s' e Hwf Ha S NS IT R E T. destruct (C110_where g c k ls s l s' e Hwf Ha S R E T) as [_ H]. unfold is_thread in IT. destruct H as (w & Hw & O & _); [right; lia|]. rewrite Hw. f_equal.
  destruct (O IT) as (j & d & -> & Hj & Hd & D). f_equal. assert (d = 0) as ->.
  { destruct D as [D|D]; [exact D|]. destruct NS as [NS|NS]; [lia|]. rewrite NS in D. lia. }
  rewrite Nat.add_0_r, Nat.mod_small in Hd by exact Hj. exact Hd.
Qed.
(** When run has returned, whatever the elements answered, no thread is inside an element and no task of an element is anywhere in the pool. *)
Theorem C110_nothing_left : forall g c k ls s, wf g -> acyclic g -> static_setup g = Some (Some (sc_mat c)) ->
  xrun c k seng_new ls = Some s -> s_out (se_s s) <> None ->
  se_who s = [] /\ forall e, In e (els g) -> ~ in_pool (se_p s) e.
Proof.
  intros g c k ls s Hwf Ha S E O. pose proof (lay_of g c Hwf Ha S) as Hl. pose proof (xrun_inv c k g Hwf Hl ls [] [] _ _ (xinv_new c k g) E) as I. cbn [app] in I.
  assert (Q : s_queue (se_s s) = [] /\ s_running (se_s s) = []) by (destruct (xi_s _ _ _ _ _ _ I) as [->|(_ & con & SI)]; [now split|exact (nothing_left _ g _ _ con Hwf Hl SI O)]). destruct Q as [Q1 Q2]. split.
  - pose proof (xi_r _ _ _ _ _ _ I) as R. rewrite Q2 in R. destruct (se_who s) as [|[w e] who] eqn:EW; trivial. specialize (R e). rewrite ?EW in R. cbn [map snd count_occ] in R.
    destruct (Nat.eq_dec e e); [discriminate|congruence].
  - intros e He. assert (He' : In e (concat (sc_mat c))) by (eapply Permutation_in; [symmetry; apply Hl|exact He]). pose proof (xi_c _ _ _ _ _ _ I e He') as C. rewrite Q1 in C. cbn [count_occ] in C. unfold census in C.
    destruct (pool_run_inv k _ _ _ (pinv_new k) (xi_p _ _ _ _ _ _ I)) as [PI _]. unfold in_pool. intros [H|[H|[(i & H)|(j & H)]]].
    + apply cnt_in in H. lia.
    + change (In e (map ptask (p_prio (se_p s)))) in H. apply cnt_in in H. lia.
    + destruct (Nat.lt_ge_cases i (c_def k)) as [L|L]; [|destruct (iv_prim _ _ PI i L) as [Z1 Z2]; rewrite Z1, Z2 in H; destruct H as [H|H]; exact H].
      assert (Hi : In i (seq 0 (c_def k))) by (apply in_seq; lia). destruct H as [H|H]; apply cnt_in in H.
      * pose proof (in_sum (fun i => cnt e (p_wsq (se_p s) i)) i _ Hi). cbn beta in *. lia.
      * pose proof (in_sum (fun i => cnt e (p_held (p_pt (se_p s) i))) i _ Hi). cbn beta in *. lia.
    + destruct (Nat.lt_ge_cases j (p_nsec (se_p s))) as [L|L]; [|rewrite (iv_sec _ _ PI j L) in H; exact H].
      assert (Hj : In j (seq 0 (p_nsec (se_p s)))) by (apply in_seq; lia). apply cnt_in in H. pose proof (in_sum (fun j => cnt e (s_held (p_st (se_p s) j))) j _ Hj). cbn beta in *. lia.
Qed.
Lemma xgood_start g c k ls s : wf g -> layering g (sc_mat c) -> xrun c k seng_new ls = Some s -> pool_ready k (se_p s) -> xlong_ok c k (se_p s) -> xgood c k g s.
Proof.
  intros Hwf Hl E R L. pose proof (xrun_inv c k g Hwf Hl ls [] [] _ _ (xinv_new c k g) E) as I. cbn [app] in I. constructor; trivial.
  - eexists. eexists. exact I.
  - exact (live_run k _ _ _ (live_new k) (xi_p _ _ _ _ _ _ I)).
  - now destruct (pool_run_inv k _ _ _ (pinv_new k) (xi_p _ _ _ _ _ _ I)).
Qed.
(** From any reachable state after a call of run on a pool that is in order: for every number of disturbances there is a number of rounds after which,
    whatever the schedule and whatever the elements answer, run has returned. Without an error it returned OK and every element has run; with one it did not
    return OK. *)
Theorem C110_returns : forall g c k ls s, wf g -> acyclic g -> static_setup g = Some (Some (sc_mat c)) -> batches_ok k -> 0 < c_def k ->
  xrun c k seng_new ls = Some s -> In XRun ls -> pool_ready k (se_p s) -> xlong_ok c k (se_p s) ->
  forall m, exists B, forall n s', xrounds c k s n m s' -> B <= n ->
    exists r, s_out (se_s s') = Some r
      /\ (no_error (s_tr (se_s s')) -> r = EReturn st_default /\ all_ran g (s_tr (se_s s')))
      /\ (~ no_error (s_tr (se_s s')) -> match r with EReturn v => (code v < 0)%Z | EThrow _ => True end).
Proof.
  intros g c k ls s Hwf Ha S HB Hk E R PR LO m. pose proof (lay_of g c Hwf Ha S) as Hl. pose proof (xgood_start g c k ls s Hwf Hl E PR LO) as G.
  exists (Datatypes.S (Datatypes.S (xtotal k s + 4 * m) * top_rank k)). intros n s' F LE. destruct (xrounds_run c k _ _ _ _ F) as (l2 & A2 & E2).
  assert (O : s_out (se_s s') <> None).
  { destruct (s_out (se_s s)) eqn:Os; [apply (out_run c k l2 s s' A2 E2); congruence|]. destruct (xdue_exists c k g s Hwf Hl Hk G Os) as (r & a & D). apply (xrounds_end c k g Hwf Hl HB Hk s n m s' F r a G D). pose proof (xrank_small k _ _ _ D). nia. }
  assert (E3 : xrun c k seng_new (ls ++ l2) = Some s') by (now rewrite (xrun_cat c k ls _ _ _ E)). destruct (sinv_of c k g (ls ++ l2) s' Hwf Hl E3) as (con & SI); [apply in_or_app; now left|].
  destruct (s_out (se_s s')) as [r|] eqn:Eo; [|congruence]. exists r. split; [reflexivity|]. pose proof (sinv_err _ g _ _ con SI) as SE. rewrite Eo in SE. split.
  - intros N. destruct r as [v|x].
    + assert (Hv : (0 <= code v)%Z) by (destruct (Z.lt_ge_cases (code v) 0) as [Z|Z]; [destruct (SE Z) as (e & He); apply N in He; lia|exact Z]). destruct (sinv_ok _ g _ Hwf Hl _ con v SI Eo Hv) as (-> & AR & _). now split.
    + destruct SE as (e & v & He & Hc & _). apply N in He. rewrite Hc in He. unfold STATUS_CRASH in He. lia.
  - intros N. destruct r as [v|x]; [|exact Logic.I]. destruct (Z.lt_ge_cases (code v) 0) as [Z|Z]; [exact Z|exfalso]. destruct (sinv_ok _ g _ Hwf Hl _ con v SI Eo Z) as (_ & _ & AR). exact (N AR).
Qed.
(** The rounds exist: no one of them can be kept from acting. There is no deadlock between the engine and the pool. *)
Theorem C110_rounds_exist : forall g c k ls s n, wf g -> acyclic g -> static_setup g = Some (Some (sc_mat c)) -> 0 < c_max k ->
  xrun c k seng_new ls = Some s -> pool_ready k (se_p s) -> xlong_ok c k (se_p s) -> no_error (s_tr (se_s s)) ->
  exists s', xrounds c k s n 0 s' /\ no_error (s_tr (se_s s')).
Proof.
  intros g c k ls s n Hwf Ha S M E R L N. pose proof (lay_of g c Hwf Ha S) as Hl. apply (xrounds_exist c k g Hwf Hl M n s); [|exact N]. exact (xgood_start g c k ls s Hwf Hl E R L).
Qed.
Lemma xstuck_step c k s l s' t : xmay l = true -> xstep c k s l = Some s' -> In t (map ptask (p_prio (se_p s))) -> (forall j, p_st (se_p s) j = SExit) ->
  In t (map ptask (p_prio (se_p s'))) /\ forall j, p_st (se_p s') j = SExit.
Proof.
  intros A E T S. destruct (may_cases c k s l s' A E) as [_ [->|(g & W & P & _)]]; [now split|]. split.
  - destruct g as [|u idx b a| | | | |i ok|j ok| | | |]; try discriminate; cbn [pool_step] in P.
    + destruct (dispatch k (p_cur (se_p s)) idx b) as [[r cur]|]; [|discriminate]. destruct (dest k r).
      * destruct (p_init (se_p s)); [|discriminate]. destruct (p_lk (se_p s) i); [discriminate|]. injection P as <-. exact T.
      * injection P as <-. exact T.
      * unfold push_prio in P. destruct (memb _ _); [discriminate|]. injection P as <-. pc. rewrite map_app. apply in_or_app. now left.
    + unfold prim_step in P. destruct (p_pt (se_p s) i) as [| |[|n]|[|x r]|]; try discriminate; try (injection P as <-; exact T).
      * destruct (if ok then p_lk (se_p s) i else Some 0), (own_take k (p_wsq (se_p s) i)) as [[|x a] b]; injection P as <-; exact T.
      * destruct (nth_error (targets k i) n) as [m|].
        -- destruct (if ok then p_lk (se_p s) m else Some 0), (steal_take k (p_wsq (se_p s) m)) as [[|x a] b]; injection P as <-; exact T.
        -- destruct ok, (pool_take k (p_q (se_p s))) as [[|x a] b]; injection P as <-; exact T.
    + unfold sec_step in P. rewrite S in P. discriminate.
  - intros j. destruct (nsec_step k _ _ _ P) as (_ & _ & Y). rewrite Y; [apply S|exact W|]. intros ok ->. cbn [pool_step] in P. unfold sec_step in P. rewrite S in P. discriminate.
Qed.
Lemma xstuck_run c k t : forall ls s s', forallb xmay ls = true -> xrun c k s ls = Some s' -> In t (map ptask (p_prio (se_p s))) -> (forall j, p_st (se_p s) j = SExit) -> In t (map ptask (p_prio (se_p s'))).
Proof.
  induction ls as [|l ls IH]; intros s s' A E T S; cbn [xrun forallb] in *; [now injection E as <-|]. apply Bool.andb_true_iff in A as [A1 A2].
  destruct (xstep c k s l) as [s1|] eqn:E1; [|discriminate]. destruct (xstuck_step c k s l s1 t A1 E1 T S) as [T1 S1]. now apply (IH s1 s').
Qed.
(** Without the condition on long tasks it is false: an element bound to the secondary threads on a pool that has none keeps run from returning, for ever,
    whatever the threads of the pool do and whatever the elements answer. *)
Theorem C110_long_needed : forall g c k ls s t ls' s', wf g -> acyclic g -> static_setup g = Some (Some (sc_mat c)) ->
  xrun c k seng_new ls = Some s -> In t (els g) -> In t (map ptask (p_prio (se_p s))) -> (forall j, p_st (se_p s) j = SExit) ->
  forallb xmay ls' = true -> xrun c k s ls' = Some s' -> s_out (se_s s') = None.
Proof.
  intros g c k ls s t ls' s' Hwf Ha S E He T X A E2. pose proof (xstuck_run c k t ls' s s' A E2 T X) as T'.
  assert (E3 : xrun c k seng_new (ls ++ ls') = Some s') by (now rewrite (xrun_cat c k ls _ _ _ E)). destruct (s_out (se_s s')) eqn:O; trivial. exfalso.
  destruct (C110_nothing_left g c k _ s' Hwf Ha S E3) as [_ N]; [congruence|]. apply (N t He). right. now left.
Qed.

(** A diamond with a tail: element 1 bound to thread 1, element 2 to the secondary threads, element 3 a macro; others use the pool too. Runs that return;
    and the same graph on a pool without secondary threads. *)
Definition c110_c : secfg := mkSC (fun e => Nat.eqb e 3) [[0]; [1; 2]; [3]; [4]] (fun e => if Nat.eqb e 1 then 1%Z else if Nat.eqb e 2 then (-101)%Z else (-1)%Z).
Definition c110_none := mkCfg 2 0 3 0 2 2 2 false false.
Definition c110_M := XMain st_default false 0.
Definition c110_P i := XPool (LPrim i true).
Definition c110_1 : list xlabel :=
  [XPool LInit; XPool (LSubmit 77 0 false 0); XRun; c110_M; c110_P 0; c110_P 0; c110_P 0; c110_P 0; c110_P 0; c110_P 0; c110_P 0; XDone (Prim 0) st_default; c110_M; c110_M; c110_M; c110_M].
Definition c110_err : list xlabel :=
  [XPool LInit; XRun; c110_M; c110_P 0; c110_P 0; c110_P 0; XDone (Prim 0) (mkStatus (-1) "no"); c110_M; c110_M].
Definition c110_stuck : list xlabel := [XPool LInit; XRun; c110_M; c110_P 0; c110_P 0; c110_P 0; XDone (Prim 0) st_default; c110_M; c110_M; c110_M; c110_M].
Example C110_nonvacuous :
  wf diamond /\ acyclic diamond /\ static_setup diamond = Some (Some (sc_mat c110_c)) /\ batches_ok c106_off /\ no_stealing c106_off /\ is_thread c106_off (sc_bind c110_c 1)
  /\ (exists s s0 s1, xrun c110_c c106_off seng_new c110_1 = Some s /\ In XRun c110_1 /\ pool_ready c106_off (se_p s) /\ xlong_ok c110_c c106_off (se_p s) /\ no_error (s_tr (se_s s))
        /\ xrun c110_c c106_off s [c110_P 1; c110_P 1] = Some s0 /\ xstep c110_c c106_off s0 (c110_P 1) = Some s1 /\ s_tr (se_s s1) = s_tr (se_s s0) ++ [GStart 1] /\ In (Prim 1) (map fst (se_who s1))
        /\ exists s' n, xrounds c110_c c106_off s n 0 s' /\ s_out (se_s s') = Some (EReturn st_default))
  /\ (exists s, xrun c110_c c106_off seng_new c110_err = Some s /\ s_out (se_s s) = Some (EReturn (mkStatus (-1) "no")))
  /\ (exists s, xrun c110_c c110_none seng_new c110_stuck = Some s /\ In 2 (els diamond) /\ In 2 (map ptask (p_prio (se_p s))) /\ forall j, p_st (se_p s) j = SExit).
Proof.
  assert (SS : static_setup diamond = Some (Some (sc_mat c110_c))) by (vm_compute; reflexivity). split; [exact diamond_wf|]. split; [exact diamond_acyclic|]. split; [exact SS|]. split; [discriminate|]. split; [now left|]. split; [unfold is_thread; cbn; lia|]. split; [|split].
  - assert (X : exists s s0 s1, xrun c110_c c106_off seng_new c110_1 = Some s /\ pool_ready c106_off (se_p s) /\ xlong_ok c110_c c106_off (se_p s) /\ no_error (s_tr (se_s s))
        /\ xrun c110_c c106_off s [c110_P 1; c110_P 1] = Some s0 /\ xstep c110_c c106_off s0 (c110_P 1) = Some s1 /\ s_tr (se_s s1) = s_tr (se_s s0) ++ [GStart 1] /\ In (Prim 1) (map fst (se_who s1))).
    { eexists. eexists. eexists. split; [vm_compute; reflexivity|]. cbn [se_s se_p s_tr]. split; [|split; [|split; [|split; [vm_compute; reflexivity|split; [vm_compute; reflexivity|split; [reflexivity|now left]]]]]].
      - split; [reflexivity|]. split; [reflexivity|]. split; [reflexivity|reflexivity].
      - left. exists 0. split; [now left|reflexivity].
      - intros e r H. cbn in H. destruct H as [H|[H|[]]]; [discriminate|]. injection H as _ <-. cbn. lia. }
    destruct X as (s & s0 & s1 & E & X1 & X2 & X3 & X4 & X5 & X6 & X7). exists s, s0, s1. split; [exact E|]. split; [right; right; now left|]. split; [exact X1|]. split; [exact X2|]. split; [exact X3|]. split; [exact X4|]. split; [exact X5|]. split; [exact X6|]. split; [exact X7|].
    destruct (C110_returns diamond c110_c c106_off c110_1 s diamond_wf diamond_acyclic SS) with (m := 0) as (B & HB); trivial; [discriminate|cbn; lia|right; right; now left|].
    destruct (C110_rounds_exist diamond c110_c c106_off c110_1 s B diamond_wf diamond_acyclic SS) as (s' & F & N); trivial; [cbn; lia|]. exists s', B. split; [exact F|]. destruct (HB B s' F (le_n _)) as (r & -> & Y & _). destruct (Y N) as [-> _]. reflexivity.
  - eexists. split; vm_compute; reflexivity.
  - eexists. split; [vm_compute; reflexivity|]. split; [vm_compute; auto|]. split; [vm_compute; auto|]. intros j. reflexivity.
Qed.

Print Assumptions C110_parts.
Print Assumptions C110_taken.
Print Assumptions C110_done.
Print Assumptions C110_where.
Print Assumptions C110_own.
Print Assumptions C110_nothing_left.
Print Assumptions C110_returns.
Print Assumptions C110_rounds_exist.
Print Assumptions C110_long_needed.
