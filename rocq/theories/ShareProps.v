(** C121: pipelines that share one thread pool do not notice each other, and all of them return *)
From Verif Require Import GraphModel GraphSpec TopoProofs StaticProofs GraphProps ShareSpec DynInv DynProofs DynTerm PoolProofs PoolLive BindProofs BindProps EngPoolProofs EngPoolProps EngLiveProofs EngFairProofs EngLiveProps ShareProofs ShareFairProofs.
From Coq Require Import Lia.
Local Open Scope nat_scope.
Local Open Scope list_scope.

(** For every number of pipelines on one pool, in every history of all of them and of others who use the pool: what pipeline [p] does is a history of its
    engine by itself, what the pool does is a history of the pool by itself, and a task of an element of [p] comes from [p] alone, with the binding index of the element. *)
Theorem C121_alone : forall n cs k ls s p,
  separate n cs -> p < n -> yrun n cs k (many_new cs) ls = Some s ->
  drun (cs p) (d_init (cs p)) (own_part n cs k p (many_new cs) ls) = Some (y_d s p)
  /\ pool_run k pool_new (shared_part n cs k (many_new cs) ls) = Some (y_p s)
  /\ forall g t, In g (shared_part n cs k (many_new cs) ls) -> In t (given1 g) -> In t (els (c_g (cs p))) -> exists b a, g = LSubmit t (c_bind (cs p) t) b a.
Proof.
  intros n cs k ls s p SE Hp E. destruct (proj_run n cs k p SE Hp ls (many_new cs) s (closed_new n cs) E) as (P1 & P2 & P3 & _). rewrite view_new in *.
  destruct (C108_parts (cs p) k _ _ P1) as (Q1 & Q2 & Q3). rewrite P2 in Q1. rewrite P3 in Q2, Q3. now repeat split.
Qed.
(** So the guarantees of a pipeline hold whatever the others do: its elements start after their dependencies and at most once, OK means that all of them have run exactly
    once without error, an error that is reported is one of its own, an error of its own is reported. *)
Theorem C121_separate : forall n cs k ls s p,
  separate n cs -> p < n -> yrun n cs k (many_new cs) ls = Some s -> orderly n cs k ls ->
  starts_after_deps (c_g (cs p)) (trace (y_d s p)) /\ starts_once (trace (y_d s p)) /\ incl (starts (trace (y_d s p))) (els (c_g (cs p)))
  /\ (forall st, d_out (y_d s p) = Some st -> (0 <= code st)%Z -> st = st_default /\ all_ran (c_g (cs p)) (trace (y_d s p)) /\ no_error (trace (y_d s p)))
  /\ (forall st, d_out (y_d s p) = Some st -> (code st < 0)%Z -> exists e, In e (els (c_g (cs p))) /\ In (GFinish e st) (trace (y_d s p)))
  /\ (forall st e r, d_out (y_d s p) = Some st -> In (GFinish e r) (trace (y_d s p)) -> (code r < 0)%Z -> (code st < 0)%Z).
Proof.
  intros n cs k ls s p SE Hp E O. destruct (C121_alone n cs k ls s p SE Hp E) as (D & _). destruct (proj1 SE p Hp) as [Hwf Ha]. assert (X : exec (cs p) (own_part n cs k p (many_new cs) ls) (y_d s p)) by (split; [exact D|now apply O]).
  destruct (C06_starts_after_deps _ _ _ Hwf Ha X) as (A1 & A2 & A3). destruct (C09_error_reported _ _ _ Hwf Ha X) as (B1 & B2 & _). split; [exact A1|]. split; [exact A2|]. split; [exact A3|]. split; [|split].
  - intros st S C. destruct (C07_ok_means_all_ran_once _ _ _ st Hwf Ha X S C) as (Y1 & Y2 & Y3 & _). auto.
  - intros st S C. destruct (B1 st S C) as (e & He). exists e. split; [|exact He]. apply A3. pose proof (exec_inv _ _ _ Hwf Ha X) as I.
    destruct (inv_trace (cs p) _ I) as [F|R]; [rewrite F in He; contradiction|]. apply StaticProofs.cnt_in. pose proof (r_body _ _ _ R e).
    assert (0 < StaticProofs.cnt e (map fst (finishes (trace (y_d s p))))) by (apply StaticProofs.cnt_in, in_map_iff; exists (e, st); split; [reflexivity|apply in_finishes; exact He]). unfold trace in *. lia.
  - exact B2.
Qed.
(** A thread of the pool is inside an element of at most one pipeline, and inside one only: no element runs in the middle of another one. *)
Theorem C121_one_place : forall n cs k ls s,
  separate n cs -> yrun n cs k (many_new cs) ls = Some s ->
  (forall p q w, p < n -> q < n -> In w (y_w s p) -> In w (y_w s q) -> p = q) /\ (forall p, p < n -> NoDup (y_w s p) /\ length (y_w s p) = length (d_act (y_d s p))).
Proof.
  intros n cs k ls s SE E. split; [refine (apart_run n cs k ls (many_new cs) s _ E); easy|]. intros p Hp.
  destruct (proj_run n cs k p SE Hp ls (many_new cs) s (closed_new n cs) E) as (P1 & _). rewrite view_new in P1. split.
  - exact (proj1 (who_start (cs p) k _ _ P1)).
  - pose proof (erun_inv (cs p) k _ [] [] _ _ (einv_new (cs p) k) P1) as I. pose proof (to_len _ _ _ (ei_t _ _ _ _ _ I)) as T. exact T.
Qed.
(** An element with a binding index starts in the thread it asks for, or one that may steal from it, whatever the other pipelines give to the pool. *)
Theorem C121_bound : forall n cs k ls s l s' p e,
  separate n cs -> p < n -> yrun n cs k (many_new cs) ls = Some s -> ystep n cs k s l = Some s' ->
  trace (y_d s' p) = trace (y_d s p) ++ [GStart e] -> c_bind (cs p) e <> (-1)%Z ->
  exists i r b a w, l = YDyn p (LWork i r) b a /\ nth_error (y_w s p) i = Some w /\ obeys k (c_bind (cs p) e) w.
Proof.
  intros n cs k ls s l s' p e SE Hp E ES T B. destruct (proj_run n cs k p SE Hp ls (many_new cs) s (closed_new n cs) E) as (P1 & _ & _ & C). rewrite view_new in P1.
  destruct (proj_step n cs k p s l s' SE Hp C ES) as (Q & _). assert (ONE : forall x, estep (cs p) k (view s p) x = Some (view s' p) -> exists w, starts_in (view s p) x = Some w /\ obeys k (c_bind (cs p) e) w).
  { intros x X. exact (C108_bound_partial (cs p) k _ (view s p) x (view s' p) e P1 X T B). }
  assert (NO : view s p <> view s' p) by (intros F; assert (y_d s p = y_d s' p) by (now injection F); rewrite <- H in T; now apply app_one_inv in T).
  destruct l as [q l b a|l]; cbn [project1] in Q.
  - destruct (Nat.eqb_spec q p) as [->|N].
    + cbn [erun] in Q. destruct (estep (cs p) k (view s p) (EDyn l b a)) as [x|] eqn:X; [|discriminate]. injection Q as ->. destruct (ONE _ X) as (w & W1 & W2). destruct l; try discriminate. cbn [starts_in view e_who] in W1. now exists i, r, b, a, w.
    + exfalso. destruct (gives (y_d s q) l) as [t|]; cbn [erun] in Q; [|congruence]. destruct (estep (cs p) k (view s p) _) as [x|] eqn:X; [|discriminate]. injection Q as ->. destruct (ONE _ X) as (w & W1 & _). discriminate.
  - exfalso. cbn [erun] in Q. destruct (estep (cs p) k (view s p) _) as [x|] eqn:X; [|discriminate]. injection Q as ->. destruct (ONE _ X) as (w & W1 & _). discriminate.
Qed.
(** From any reachable state of all pipelines on a pool that is in order: for every number of disturbances there is a number of rounds after which, whatever the schedule,
    every run that was active and whose elements report no error has returned OK and every element of its pipeline has run. *)
Theorem C121_returns : forall n cs k ls s,
  separate n cs -> batches_ok k -> 0 < c_def k -> (forall q, q < n -> 0 < c_workers (cs q)) ->
  yrun n cs k (many_new cs) ls = Some s -> orderly n cs k ls -> pool_ready k (y_p s) -> (forall q, q < n -> long_ok (cs q) k (y_p s)) ->
  forall m, exists B, forall r s', yfair_rounds n cs k s r m s' -> B <= r ->
    forall p, p < n -> d_main (y_d s p) <> MIdle -> no_error (trace (y_d s' p)) ->
    d_main (y_d s' p) = MIdle /\ d_out (y_d s' p) = Some st_default /\ all_ran (c_g (cs p)) (trace (y_d s' p)).
Proof.
  intros n cs k ls s SE HB Hk Hw E O R L m. set (dm := work_left n cs s + 5 * m). set (T := sumf (fun q => total (cs q) k (view s q)) (seq 0 n)).
  exists (S (S (T + 19 * (m + dm)) * top_rank k) + dm). intros r s' F LE p Hp NI N.
  destruct (proj1 SE p Hp) as [Hwf Ha]. destruct (proj_run n cs k p SE Hp ls (many_new cs) s (closed_new n cs) E) as (P1 & P2 & _ & C). rewrite view_new in P1, P2.
  assert (D : disciplined (cs p) (d_init (cs p)) (dyn_part (cs p) k (eng_new (cs p)) (project n cs k p (many_new cs) ls))) by (rewrite P2; now apply O).
  pose proof (good_start (cs p) k _ (view s p) Hwf Ha P1 D R (L p Hp)) as G.
  assert (I : all_inv n cs s) by (intros q Hq; destruct (proj1 SE q Hq) as [W2 A2]; apply (exec_inv (cs q) (own_part n cs k q (many_new cs) ls) (y_d s q) W2 A2); split; [now apply (C121_alone n cs k ls s q SE Hq E)|now apply O]).
  destruct (rounds_one n cs k p SE Hp s r m s' F C I) as (pre & s1 & r1 & m1 & x & M1 & E1 & F1 & H1 & H2 & H3).
  destruct (any_run (cs p) k Hwf Ha HB pre (view s p) s1 G M1 E1) as [G1 T1]. destruct (rounds_run (cs p) k _ _ _ _ F1) as (l2 & M2 & E2).
  assert (EM : d_main (y_d s' p) = MIdle).
  { assert (X : d_main (e_d s1) = MIdle \/ d_main (e_d s1) <> MIdle) by (destruct (d_main (e_d s1)); auto; right; discriminate). destruct X as [X|X]; [exact (proj2 (run_more (cs p) k _ _ _ M2 E2) X)|].
    destruct (due_exists (cs p) k s1 Hwf Ha (Hw p Hp) Hk G1 X (noerr_less (cs p) k _ _ _ M2 E2 N)) as (d & a & Du). apply (rounds_end (cs p) k Hwf Ha HB (Hw p Hp) Hk s1 r1 m1 (view s' p) F1 d a G1 Du N).
    pose proof (rank_small k _ _ _ Du) as RS. assert (TT : total (cs p) k (view s p) <= T) by (unfold T; apply (sumf_in (fun q => total (cs q) k (view s q))); apply in_seq; lia).
    assert (Y : total (cs p) k s1 + 19 * m1 <= T + 19 * (m + dm)) by (unfold dm; lia). assert (r1 + dm >= r) by (unfold dm; lia). nia. }
  split; [exact EM|]. refine (ended_well (cs p) k _ (view s p) (pre ++ l2) (view s' p) Hwf Ha P1 D NI _ _ N EM); [now rewrite forallb_app, M1, M2|]. now rewrite (erun_cat _ _ _ _ _ _ E1).
Qed.
(** The rounds exist: no caller and no thread can be kept from acting. The pipelines do not deadlock each other. *)
Theorem C121_rounds_exist : forall n cs k ls s r,
  separate n cs -> 0 < n -> batches_ok k -> 0 < c_max k -> (forall q, q < n -> c_def k + p_nsec (y_p s) <= c_workers (cs q)) ->
  yrun n cs k (many_new cs) ls = Some s -> orderly n cs k ls -> pool_ready k (y_p s) -> (forall q, q < n -> long_ok (cs q) k (y_p s)) -> (forall q, q < n -> no_error (trace (y_d s q))) ->
  exists s', yfair_rounds n cs k s r 0 s' /\ forall q, q < n -> no_error (trace (y_d s' q)).
Proof.
  intros n cs k ls s r SE H0 HB M LE E O R L N. apply (yrounds_exist n cs k SE H0 HB M r s); [|exact N]. split.
  - destruct (proj_run n cs k 0 SE H0 ls (many_new cs) s (closed_new n cs) E) as (_ & _ & _ & C). exact C.
  - intros p Hp. destruct (proj1 SE p Hp) as [Hwf Ha]. destruct (proj_run n cs k p SE Hp ls (many_new cs) s (closed_new n cs) E) as (P1 & P2 & _ & _). rewrite view_new in P1, P2.
    assert (D : disciplined (cs p) (d_init (cs p)) (dyn_part (cs p) k (eng_new (cs p)) (project n cs k p (many_new cs) ls))) by (rewrite P2; now apply O).
    split; [exact (good_start (cs p) k _ (view s p) Hwf Ha P1 D R (L p Hp))|]. split; [exact (who_start (cs p) k _ _ P1)|]. split; [now eexists; exact P1|now apply LE].
Qed.

(** The pipeline of C108 (0, and 1 before 2) and a second one (10 before 11, and 12 bound to thread 0) on two primary threads and a secondary one: both run, thread 0 is
    inside an element of the second, thread 1 and the secondary thread are inside elements of the first. *)
Definition c121_g : graph := graph_of (dep_run blank [OAdd 11 [Some 10]]) [10; 11; 12].
Lemma c121_wf : wf c121_g.
Proof.
  apply C03_reachable_graphs_wf; [intros e; split; reflexivity|repeat constructor; simpl; intuition discriminate|].
  intros e He. simpl in He. intuition subst; vm_compute; intros x Hx; intuition.
Qed.
Definition c121_cs (q : nat) : dcfg := if Nat.eqb q 0 then c108_c else DynModel.mkCfg c121_g (fun e => if Nat.eqb e 12 then 0%Z else (-1)%Z) 5 1.
Definition c121_M q := YDyn q (LMain st_default) false 0.
Definition c121_1 : list ylabel :=
  [YPool LInit; YDyn 0 LRun false 0; YDyn 1 LRun false 0; c121_M 0; c121_M 1; c121_M 0; c121_M 1; c121_M 0; c121_M 1; c121_M 0; c121_M 1; c121_M 0; c121_M 1; c121_M 0; c121_M 1;
   YPool (LPrim 0 true); YPool (LPrim 0 true); YPool (LPrim 0 true); YPool (LPrim 1 true); YPool (LPrim 1 true); YPool (LPrim 1 true); YPool (LSec 0 true); YPool (LSec 0 true); YPool (LSec 0 true); YPool (LSec 0 true)].
Example C121_nonvacuous :
  separate 2 c121_cs /\ batches_ok c106_off
  /\ exists s, yrun 2 c121_cs c106_off (many_new c121_cs) c121_1 = Some s /\ orderly 2 c121_cs c106_off c121_1
       /\ y_w s 0 = [Prim 1; Sec 0] /\ d_act (y_d s 0) = [[OExec 0]; [OExec 1]] /\ y_w s 1 = [Prim 0] /\ d_act (y_d s 1) = [[OExec 10]] /\ d_pool (y_d s 1) = [12]
       /\ pool_ready c106_off (y_p s) /\ (forall q, q < 2 -> long_ok (c121_cs q) c106_off (y_p s)) /\ (forall q, q < 2 -> no_error (trace (y_d s q)))
       /\ (forall q, q < 2 -> c_def c106_off + p_nsec (y_p s) <= c_workers (c121_cs q))
       /\ (exists s1, ystep 2 c121_cs c106_off s (YDyn 0 (LWork 0 st_default) false 0) = Some s1 /\ trace (y_d s1 0) = trace (y_d s 0) ++ [GStart 0] /\ c_bind (c121_cs 0) 0 <> (-1)%Z)
       /\ exists s' r, yfair_rounds 2 c121_cs c106_off s r 0 s' /\ forall q, q < 2 -> d_main (y_d s' q) = MIdle /\ d_out (y_d s' q) = Some st_default /\ all_ran (c_g (c121_cs q)) (trace (y_d s' q)).
Proof.
  assert (SE : separate 2 c121_cs).
  { split.
    - intros q _. unfold c121_cs. destruct (Nat.eqb q 0); cbn [c_g].
      + split; [exact strag_wf|]. apply acyclic_by_check; [exact strag_wf|vm_compute; reflexivity].
      + split; [exact c121_wf|]. apply acyclic_by_check; [exact c121_wf|vm_compute; reflexivity].
    - intros p q t Hp Hq. destruct p as [|[|p]], q as [|[|q]]; try lia; cbn; intros H1 H2; exfalso; repeat (destruct H1 as [H1|H1]; [subst t; repeat (destruct H2 as [H2|H2]; [discriminate H2|]); destruct H2|]); destruct H1. }
  assert (BO : batches_ok c106_off) by discriminate. split; [exact SE|]. split; [exact BO|].
  assert (X : exists s, yrun 2 c121_cs c106_off (many_new c121_cs) c121_1 = Some s
       /\ y_w s 0 = [Prim 1; Sec 0] /\ d_act (y_d s 0) = [[OExec 0]; [OExec 1]] /\ y_w s 1 = [Prim 0] /\ d_act (y_d s 1) = [[OExec 10]] /\ d_pool (y_d s 1) = [12]
       /\ pool_ready c106_off (y_p s) /\ (forall q, q < 2 -> long_ok (c121_cs q) c106_off (y_p s)) /\ (forall q, q < 2 -> no_error (trace (y_d s q)))
       /\ (forall q, q < 2 -> c_def c106_off + p_nsec (y_p s) <= c_workers (c121_cs q)) /\ (forall q, q < 2 -> d_main (y_d s q) <> MIdle)
       /\ exists s1, ystep 2 c121_cs c106_off s (YDyn 0 (LWork 0 st_default) false 0) = Some s1 /\ trace (y_d s1 0) = trace (y_d s 0) ++ [GStart 0]).
  { eexists. split; [vm_compute; reflexivity|]. split; [reflexivity|]. split; [reflexivity|]. split; [reflexivity|]. split; [reflexivity|]. split; [reflexivity|]. split; [|split; [|split; [|split; [|split]]]].
    - split; [reflexivity|]. split; [reflexivity|]. split; [reflexivity|reflexivity].
    - intros q _. left. exists 0. split; [now left|reflexivity].
    - intros q Hq e r H. destruct q as [|[|q]]; [destruct H|destruct H|lia].
    - intros q Hq. destruct q as [|[|q]]; [vm_compute; lia|vm_compute; lia|lia].
    - intros q Hq. destruct q as [|[|q]]; [discriminate|discriminate|lia].
    - eexists. split; [vm_compute; reflexivity|reflexivity]. }
  destruct X as (s & E & W0 & A0 & W1 & A1 & P1 & R & L & N & LE & NI & S1).
  assert (O : orderly 2 c121_cs c106_off c121_1).
  { intros p Hp. destruct p as [|[|p]]; [| |lia]; vm_compute; repeat (split; [first [discriminate|intros _ st F; discriminate F]|]); exact I. }
  exists s. split; [exact E|]. split; [exact O|]. split; [exact W0|]. split; [exact A0|]. split; [exact W1|]. split; [exact A1|]. split; [exact P1|]. split; [exact R|]. split; [exact L|]. split; [exact N|]. split; [exact LE|].
  split; [destruct S1 as (s1 & S1 & S2); exists s1; split; [exact S1|]; split; [exact S2|discriminate]|].
  assert (D0 : 0 < c_def c106_off) by (cbn; lia). assert (M0 : 0 < c_max c106_off) by (cbn; lia).
  assert (W : forall q, q < 2 -> 0 < c_workers (c121_cs q)) by (intros q Hq; specialize (LE q Hq); lia).
  destruct (C121_returns 2 c121_cs c106_off c121_1 s SE BO D0 W E O R L 0) as (B & HB).
  destruct (C121_rounds_exist 2 c121_cs c106_off c121_1 s B SE Nat.lt_0_2 BO M0 LE E O R L N) as (s' & F & N'). exists s', B. split; [exact F|]. intros q Hq. exact (HB B s' F (le_n _) q Hq (NI q Hq) (N' q Hq)).
Qed.

Print Assumptions C121_alone.
Print Assumptions C121_separate.
Print Assumptions C121_one_place.
Print Assumptions C121_bound.
Print Assumptions C121_returns.
Print Assumptions C121_rounds_exist.
