(** C109: a run of the dynamic engine on the pool returns *)
From Verif Require Import GraphSpec EngLiveSpec DynInv DynProofs DynTerm PoolProofs PoolLive BindProofs BindProps EngPoolProofs EngPoolProps EngLiveProofs EngFairProofs.
From Coq Require Import Lia.
Local Open Scope nat_scope.
Local Open Scope list_scope.

Lemma good_start c k ls s : wf (c_g c) -> acyclic (c_g c) -> erun c k (eng_new c) ls = Some s -> disciplined c (d_init c) (dyn_part c k (eng_new c) ls) ->
  pool_ready k (e_p s) -> long_ok c k (e_p s) -> good c k s.
Proof.
  intros Hwf Ha E D R L. destruct (C108_parts c k ls s E) as (P1 & P2 & P3). pose proof (erun_inv c k ls [] [] _ _ (einv_new c k) E) as I. constructor; trivial.
  - eexists. eexists. exact I.
  - apply (exec_inv c _ _ Hwf Ha (conj P1 D)).
  - exact (live_run k _ _ _ (live_new k) P2).
  - now destruct (pool_run_inv k _ _ _ (pinv_new k) P2).
Qed.
Lemma who_start c k ls s : erun c k (eng_new c) ls = Some s -> who_ok k s.
Proof.
  intros E. apply (who_run c k ls (eng_new c) s); trivial.
  - apply pinv_new.
  - split; [constructor|easy].
  - eexists. eexists. exact (einv_new c k).
Qed.
Lemma erun_app c k l1 : forall s s1 l2 s2, erun c k s l1 = Some s1 -> erun c k s1 l2 = Some s2 -> erun c k s (l1 ++ l2) = Some s2 /\ dyn_part c k s (l1 ++ l2) = dyn_part c k s l1 ++ dyn_part c k s1 l2.
Proof.
  induction l1 as [|l l1 IH]; intros s s1 l2 s2 E1 E2; cbn [erun dyn_part app] in *; [injection E1 as <-; now split|]. destruct (estep c k s l) as [s3|]; [|discriminate].
  destruct (IH s3 s1 l2 s2 E1 E2) as [A B]. split; [exact A|]. now rewrite B, app_assoc.
Qed.
Lemma part_no_run c k : forall ls s, forallb may_happen ls = true -> ~ In LRun (dyn_part c k s ls).
Proof.
  induction ls as [|l ls IH]; intros s A; cbn [dyn_part forallb] in *; [easy|]. apply Bool.andb_true_iff in A as [A1 A2]. destruct (estep c k s l) as [s1|]; [|easy]. intros H. apply in_app_iff in H as [H|H]; [|now apply (IH s1 A2)].
  destruct l as [[]|g]; try discriminate; try (destruct H as [H|[]]; discriminate). destruct (executes (e_p s) g) as [[w t]|]; [destruct (memb t (els (c_g c)))|]; try contradiction. destruct H as [H|[]]. discriminate.
Qed.
Lemma disc_free c : forall l s, ~ In LRun l -> disciplined c s l.
Proof.
  induction l as [|x l IH]; intros s0 Hn; simpl; [exact I|]. split; [intros ->; exfalso; apply Hn; left; reflexivity|].
  destruct (dstep c s0 x); [|exact I]. apply IH. intros Hx; apply Hn; right; exact Hx.
Qed.
Lemma disc_app c l2 : ~ In LRun l2 -> forall l1 s, disciplined c s l1 -> disciplined c s (l1 ++ l2).
Proof. intros N. induction l1 as [|l l1 IH]; intros s D; cbn [app disciplined] in *; [now apply disc_free|]. destruct D as [D1 D2]. split; [exact D1|]. destruct (dstep c s l); [now apply IH|exact I]. Qed.

(** From any reachable state in which run is active on a pool that is in order: for every number of disturbances there is a number of rounds after which,
    whatever the schedule, run has returned OK and every element has run, when no element reports an error. *)
Theorem C109_returns : forall c k ls s,
  wf (c_g c) -> acyclic (c_g c) -> batches_ok k -> 0 < c_workers c -> 0 < c_def k ->
  erun c k (eng_new c) ls = Some s -> disciplined c (d_init c) (dyn_part c k (eng_new c) ls) ->
  d_main (e_d s) <> MIdle -> pool_ready k (e_p s) -> long_ok c k (e_p s) ->
  forall m, exists B, forall n s', fair_rounds c k s n m s' -> B <= n -> no_error (trace (e_d s')) ->
    d_main (e_d s') = MIdle /\ d_out (e_d s') = Some st_default /\ all_ran (c_g c) (trace (e_d s')).
Proof.
  intros c k ls s Hwf Ha HB Hw Hk E D NI R L. pose proof (good_start c k ls s Hwf Ha E D R L) as G.
  intros m. exists (S (S (total c k s + 19 * m) * top_rank k)). intros n s' F LE N. destruct (rounds_run c k _ _ _ _ F) as (l2 & A2 & E2).
  assert (EM : d_main (e_d s') = MIdle).
  { destruct (due_exists c k s Hwf Ha Hw Hk G NI (noerr_less c k _ _ _ A2 E2 N)) as (r & a & Du). apply (rounds_end c k Hwf Ha HB Hw Hk s n m s' F r a G Du N).
    pose proof (rank_small k _ _ _ Du). nia. }
  destruct (erun_app c k ls _ _ _ _ E E2) as [E3 P3]. destruct (C108_parts c k _ s' E3) as (X1 & _).
  assert (X : exec c (dyn_part c k (eng_new c) (ls ++ l2)) (e_d s')).
  { split; [exact X1|]. rewrite P3. apply disc_app; [now apply part_no_run|exact D]. }
  split; [exact EM|]. pose proof (exec_inv c _ _ Hwf Ha X) as I'.
  assert (Hout : d_out (e_d s') <> None).
  { rewrite P3 in X1. rewrite drun_app in X1. pose proof (C108_parts c k _ s E) as (Y3 & _). rewrite Y3 in X1.
    refine (idle_has_out c _ _ _ _ X1 EM). intros F0. now destruct NI. }
  destruct (d_out (e_d s')) as [st|] eqn:Eo; [|congruence].
  assert (Hc : (0 <= code st)%Z).
  { pose proof (v_phase c _ I') as P. rewrite EM, Eo in P. destruct P as [Ri [Es _]]. subst st. destruct (r_stat c _ _ Ri) as [Es|[Es [e He]]].
    - rewrite Es. discriminate.
    - apply N in He. exact He. }
  destruct (C07_ok_means_all_ran_once c _ _ st Hwf Ha X Eo Hc) as [Es [Hr _]]. subst st. auto.
Qed.
(** The rounds exist: no one of them can be kept from acting. There is no deadlock between the engine and the pool. *)
Theorem C109_rounds_exist : forall c k ls s n,
  wf (c_g c) -> acyclic (c_g c) -> 0 < c_max k -> c_def k + p_nsec (e_p s) <= c_workers c ->
  erun c k (eng_new c) ls = Some s -> disciplined c (d_init c) (dyn_part c k (eng_new c) ls) ->
  pool_ready k (e_p s) -> long_ok c k (e_p s) -> no_error (trace (e_d s)) ->
  exists s', fair_rounds c k s n 0 s' /\ no_error (trace (e_d s')).
Proof.
  intros c k ls s n Hwf Ha M LE E D R L N. apply (rounds_exist c k Hwf Ha M n s); [|exact N]. split; [exact (good_start c k ls s Hwf Ha E D R L)|]. split; [exact (who_start c k ls s E)|].
  split; [now exists ls|exact LE].
Qed.
Lemma stuck_step c k s l s' t : may_happen l = true -> estep c k s l = Some s' -> In t (map ptask (p_prio (e_p s))) -> (forall j, p_st (e_p s) j = SExit) ->
  In t (map ptask (p_prio (e_p s'))) /\ forall j, p_st (e_p s') j = SExit.
Proof.
  intros A E T S. assert (X : forall g, pool_step k (e_p s) g = Next (e_p s') -> works g = true -> In t (map ptask (p_prio (e_p s'))) /\ forall j, p_st (e_p s') j = SExit).
  { intros g P W. split.
    - destruct g as [|u idx b a| | | | |i ok|j ok| | | |]; try discriminate; cbn [pool_step] in P.
      + destruct (dispatch k (p_cur (e_p s)) idx b) as [[r cur]|]; [|discriminate]. destruct (dest k r).
        * destruct (p_init (e_p s)); [|discriminate]. destruct (p_lk (e_p s) i); [discriminate|]. injection P as <-. exact T.
        * injection P as <-. exact T.
        * unfold push_prio in P. destruct (memb _ _); [discriminate|]. injection P as <-. pc. rewrite map_app. apply in_or_app. now left.
      + unfold prim_step in P. destruct (p_pt (e_p s) i) as [| |[|n]|[|x r]|]; try discriminate; try (injection P as <-; exact T).
        * destruct (if ok then p_lk (e_p s) i else Some 0), (own_take k (p_wsq (e_p s) i)) as [[|x a] b]; injection P as <-; exact T.
        * destruct (nth_error (targets k i) n) as [m|].
          -- destruct (if ok then p_lk (e_p s) m else Some 0), (steal_take k (p_wsq (e_p s) m)) as [[|x a] b]; injection P as <-; exact T.
          -- destruct ok, (pool_take k (p_q (e_p s))) as [[|x a] b]; injection P as <-; exact T.
      + unfold sec_step in P. rewrite S in P. discriminate.
    - intros j. destruct (nsec_step k _ _ _ P) as (_ & _ & Y). rewrite Y; [apply S|exact W|].
      intros ok ->. cbn [pool_step] in P. unfold sec_step in P. rewrite S in P. discriminate. }
  assert (CASES : e_p s' = e_p s \/ exists g, works g = true /\ pool_step k (e_p s) g = Next (e_p s')).
  { destruct l as [l b x|g]; cbn [estep] in E.
    - destruct l; try discriminate; (destruct (dstep c (e_d s) _) as [d|]; [|discriminate]); (destruct (gives (e_d s) _) as [e|]; [destruct (pool_step k (e_p s) _) as [| |p] eqn:Ep; try discriminate|]);
        injection E as <-; [right; eexists; split; [|exact Ep]; reflexivity|now left|right; eexists; split; [|exact Ep]; reflexivity|now left|right; eexists; split; [|exact Ep]; reflexivity|now left].
    - assert (W : works g = true) by (destruct g; try discriminate; reflexivity). destruct (existsb _ _ || _); [discriminate|]. destruct (pool_step k (e_p s) g) as [| |p] eqn:Ep; try discriminate. right. exists g. split; [exact W|].
      destruct (executes (e_p s) g) as [[v u]|]; [destruct (memb u _); [destruct (dstep c (e_d s) _); [|discriminate]|]|]; injection E as <-; exact Ep. }
  destruct CASES as [->|(g & W & P)]; [now split|now apply (X g)].
Qed.
Lemma stuck_run c k t : forall ls s s', forallb may_happen ls = true -> erun c k s ls = Some s' -> In t (map ptask (p_prio (e_p s))) -> (forall j, p_st (e_p s) j = SExit) -> In t (map ptask (p_prio (e_p s'))).
Proof.
  induction ls as [|l ls IH]; intros s s' A E T S; cbn [erun forallb] in *; [now injection E as <-|]. apply Bool.andb_true_iff in A as [A1 A2].
  destruct (estep c k s l) as [s1|] eqn:E1; [|discriminate]. destruct (stuck_step c k s l s1 t A1 E1 T S) as [T1 S1]. now apply (IH s1 s').
Qed.
(** Without the condition on long tasks it is false: an element bound to the secondary threads on a pool that has none keeps run from returning, for ever,
    whatever the threads of the pool do. *)
Theorem C109_long_needed : forall c k ls s t ls' s',
  wf (c_g c) -> acyclic (c_g c) ->
  erun c k (eng_new c) ls = Some s -> disciplined c (d_init c) (dyn_part c k (eng_new c) ls) ->
  In t (els (c_g c)) -> In t (map ptask (p_prio (e_p s))) -> (forall j, p_st (e_p s) j = SExit) ->
  forallb may_happen ls' = true -> erun c k s ls' = Some s' -> no_error (trace (e_d s')) -> d_main (e_d s') <> MIdle.
Proof.
  intros c k ls s t ls' s' Hwf Ha E D He T S A E2 N EM. pose proof (stuck_run c k t ls' s s' A E2 T S) as T'. destruct (erun_app c k ls _ _ _ _ E E2) as [E3 P3]. destruct (C108_parts c k _ s' E3) as (X1 & _).
  assert (X : exec c (dyn_part c k (eng_new c) (ls ++ ls')) (e_d s')) by (split; [exact X1|]; rewrite P3; apply disc_app; [now apply part_no_run|exact D]).
  pose proof (erun_inv c k _ [] [] _ _ (einv_new c k) E3) as IE. pose proof (ei_c _ _ _ _ _ IE t He) as C. unfold census in C. apply cnt_in in T'.
  assert (DP : In t (d_pool (e_d s'))) by (apply cnt_in; lia). pose proof (exec_inv c _ _ Hwf Ha X) as I'. pose proof (v_phase c _ I') as P. rewrite EM in P.
  destruct (d_out (e_d s')) as [st|] eqn:Eo.
  - destruct P as [Ri [Es _]]. assert (Hc : (0 <= code st)%Z).
    { subst st. destruct (r_stat c _ _ Ri) as [Es|[Es [e Hee]]]; [rewrite Es; discriminate|]. apply N in Hee. exact Hee. }
    destruct (C07_ok_means_all_ran_once c _ _ st Hwf Ha X Eo Hc) as (_ & _ & _ & _ & Z & _). rewrite Z in DP. contradiction.
  - destruct P as [P _]. assert (Q : In (OExec t) (all_ops (e_d s'))) by (unfold all_ops; apply in_or_app; right; apply in_or_app; right; now apply in_map). apply P in Q. destruct Q as [Q|[Q|(e & Q & _)]]; discriminate.
Qed.

(** The engine of C108 in the middle of a run meets what is asked; and on a pool without secondary threads element 1, bound to them, waits. *)
Definition c109_none := mkCfg 2 0 3 0 2 2 2 false false.
Definition c109_1 : list elabel := [EPool LInit; EDyn LRun false 0; c108_M; c108_M; c108_M; c108_M; c108_M; c108_M].
Example C109_nonvacuous :
  wf (c_g c108_c) /\ acyclic (c_g c108_c) /\ batches_ok c106_off
  /\ (exists s, erun c108_c c106_off (eng_new c108_c) c108_1 = Some s /\ disciplined c108_c (d_init c108_c) (dyn_part c108_c c106_off (eng_new c108_c) c108_1)
        /\ d_main (e_d s) <> MIdle /\ pool_ready c106_off (e_p s) /\ long_ok c108_c c106_off (e_p s) /\ no_error (trace (e_d s)) /\ c_def c106_off + p_nsec (e_p s) <= c_workers c108_c
        /\ exists s' n, fair_rounds c108_c c106_off s n 0 s' /\ d_main (e_d s') = MIdle /\ d_out (e_d s') = Some st_default)
  /\ (exists s, erun c108_c c109_none (eng_new c108_c) c109_1 = Some s /\ disciplined c108_c (d_init c108_c) (dyn_part c108_c c109_none (eng_new c108_c) c109_1)
        /\ In 1 (els (c_g c108_c)) /\ In 1 (map ptask (p_prio (e_p s))) /\ forall j, p_st (e_p s) j = SExit).
Proof.
  assert (Hwf : wf (c_g c108_c)) by exact strag_wf. assert (Ha : acyclic (c_g c108_c)) by (apply acyclic_by_check; [exact strag_wf|vm_compute; reflexivity]).
  split; [exact Hwf|]. split; [exact Ha|]. split; [discriminate|]. split.
  - assert (X : exists s, erun c108_c c106_off (eng_new c108_c) c108_1 = Some s /\ d_main (e_d s) <> MIdle /\ pool_ready c106_off (e_p s) /\ long_ok c108_c c106_off (e_p s) /\ no_error (trace (e_d s)) /\ c_def c106_off + p_nsec (e_p s) <= c_workers c108_c).
    { eexists. split; [vm_compute; reflexivity|]. cbn [e_d e_p d_main d_sh]. split; [discriminate|]. split; [|split; [|split]].
      - split; [reflexivity|]. split; [reflexivity|]. split; [reflexivity|reflexivity].
      - left. exists 0. split; [now left|reflexivity].
      - intros e r H. cbn in H. repeat (destruct H as [H|H]; [discriminate|]). contradiction.
      - cbn. lia. }
    destruct X as (s & E & X1 & X2 & X3 & X4 & X5). assert (D : disciplined c108_c (d_init c108_c) (dyn_part c108_c c106_off (eng_new c108_c) c108_1)).
    { vm_compute. split; [intros _ st F; discriminate F|]. repeat (split; [discriminate|]). exact I. }
    exists s. split; [exact E|]. split; [exact D|]. split; [exact X1|]. split; [exact X2|]. split; [exact X3|]. split; [exact X4|]. split; [exact X5|].
    destruct (C109_returns c108_c c106_off c108_1 s Hwf Ha) with (m := 0) as (B & HB); trivial; [discriminate|cbn; lia|cbn; lia|].
    destruct (C109_rounds_exist c108_c c106_off c108_1 s B Hwf Ha) as (s' & F & N); trivial; [cbn; lia|]. exists s', B. split; [exact F|]. destruct (HB B s' F (le_n _) N) as (Y1 & Y2 & _). now split.
  - eexists. split; [vm_compute; reflexivity|]. split; [vm_compute; split; [intros _ st F; discriminate F|]; repeat (split; [discriminate|]); exact I|].
    split; [vm_compute; auto|]. split; [vm_compute; auto|]. intros j. reflexivity.
Qed.

Print Assumptions C109_returns.
Print Assumptions C109_rounds_exist.
Print Assumptions C109_long_needed.
