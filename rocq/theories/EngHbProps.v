(** C125: dependencies, calls and returns order memory in the static engine and in the parallel path of the dynamic engine. *)
From Verif Require Import GraphModel GraphSpec TopoProofs StaticModel StaticProofs StatusProofs GraphProps LeftProofs LeftProps DynModel DynInv DynProofs DynTerm DynProps
  FastModel ParProofs FastProps HbSpec HbModel HbProofs HbProps StatHbModel StatHbProofs ParHbModel ParHbProofs.
From Coq Require Import Lia.
Local Open Scope nat_scope.

(** * The static engine *)
(** [statexec g inl ls s m]: the schedule [ls] (as in C05) of one run leads to [s]; the log [m] holds what the threads have done since the call. *)
Definition statexec (g : graph) (inl : nat -> bool) (ls : list slabel) (s : sst) (m : hlog) : Prop :=
  exists mat, static_setup g = Some (Some mat) /\ shrun (sh_init inl mat) ls = Some (s, m).

Lemma statexec_inv g inl ls s m : wf g -> acyclic g -> statexec g inl ls s m -> exists mat con, layering g mat /\ sinv inl g mat s con /\ SHI inl g s m.
Proof.
  intros Wf Ac (mat & Es & H). destruct (static_setup_spec g Wf) as [L _]. destruct (L Ac) as (m0 & Em & Ly). rewrite Em in Es. injection Es as ->.
  destruct (shrun_SHI inl g mat Wf Ly ls _ _ _ (s, m) (sinv_init inl g mat) (SHI_init inl g mat) H) as ((con & I) & K). exists mat, con. auto.
Qed.

(** Every run of the engine has a log, and the log shows the same elements. *)
Theorem C125_static_logged : forall g inl mat ls s, wf g -> acyclic g -> static_setup g = Some (Some mat) -> srun (s_init inl mat) ls = Some s ->
  exists m, statexec g inl ls s m /\ trace_of m = s_tr s.
Proof.
  intros g inl mat ls s Wf Ac Es H. destruct (srun_shrun ls (s_init inl mat) [(0, HNote NCall)] s H) as [m' E]. eexists.
  assert (X : statexec g inl ls s ([(0, HNote NCall)] ++ m')) by (exists mat; split; [exact Es|exact E]). split; [exact X|].
  destruct (statexec_inv g inl ls s _ Wf Ac X) as (_ & _ & _ & _ & K). apply (si_tr _ _ _ _ K).
Qed.
Print Assumptions C125_static_logged.

(** Whatever an element did, up to its end, happens before the start of every element that depends on it, directly or not. *)
Theorem C125_static_order : forall g inl ls s m a b i j r, wf g -> acyclic g -> statexec g inl ls s m ->
  path g a b -> at_ m i (NFinish a r) -> at_ m j (NStart b) -> happens_before m i j.
Proof.
  intros g inl ls s m a b i j r Wf Ac H P Hi Hj. destruct (statexec_inv g inl ls s m Wf Ac H) as (_ & _ & _ & _ & K). destruct (si_starts _ _ _ _ K j b Hj) as [_ X]. now apply (X a i r).
Qed.
Print Assumptions C125_static_order.

(** What the caller did before run happens before everything the elements do. *)
Theorem C125_static_call : forall g inl ls s m e i j n, wf g -> acyclic g -> statexec g inl ls s m ->
  at_ m i NCall -> n = NStart e \/ (exists r, n = NFinish e r) -> at_ m j n -> happens_before m i j.
Proof.
  intros g inl ls s m e i j n Wf Ac H Hi Hn Hj. destruct (statexec_inv g inl ls s m Wf Ac H) as (_ & _ & _ & _ & K).
  assert (Z : happens_before m 0 j) by (destruct Hn as [->|[r ->]]; [apply (si_starts _ _ _ _ K j e Hj)|exact (si_ends _ _ _ _ K j e r Hj)]).
  destruct (Nat.eq_dec i 0) as [->|D]; [exact Z|]. exfalso. clear - H D Hi. destruct H as (mat & _ & H).
  assert (G : forall ls s m s' m', (forall i, at_ m i NCall -> i = 0) -> shrun (s, m) ls = Some (s', m') -> forall i, at_ m' i NCall -> i = 0).
  { clear. induction ls as [|l ls IH]; intros s m s' m' N E; cbn [shrun] in E; [injection E as <- <-; exact N|]. unfold shstep in E. cbn [fst snd] in E. destruct (sstep s l) as [s1|]; [|discriminate].
    eapply IH; [|exact E]. intros i Hi. destruct (at_snoc _ _ _ _ Hi) as [A|(k & t & _ & E1)]; [now apply N|]. exfalso. apply nth_error_In in E1. destruct l as [r|e|e r]; cbn [stat_mem] in E1.
    - apply in_map_iff in E1 as (x & E1 & Hx). injection E1 as _ ->. unfold caller_mem in Hx. destruct (s_main s) as [|[| | | |] l]; try (destruct (check_status (s_stat s))); cbn [In] in Hx; repeat destruct Hx as [Hx|Hx]; try discriminate Hx; exact Hx.
    - destruct E1 as [E1|[E1|[]]]; discriminate E1.
    - destruct E1 as [E1|[E1|[]]]; discriminate E1. }
  apply D. eapply G; [|exact H|exact Hi]. intros [|[|q]] [t X]; try discriminate X. reflexivity.
Qed.
Print Assumptions C125_static_call.

(** When run ends - with OK, with an error or by an exception - everything that any element did happens before that, and every element that started has ended. *)
Theorem C125_static_return : forall g inl ls s m j st, wf g -> acyclic g -> statexec g inl ls s m -> at_ m j (NRet st) ->
  (forall e i, at_ m i (NStart e) -> exists i' r, at_ m i' (NFinish e r)) /\
  (forall e i r, at_ m i (NFinish e r) -> happens_before m i j).
Proof.
  intros g inl ls s m j st Wf Ac H Hj. destruct (statexec_inv g inl ls s m Wf Ac H) as (mat & con & Ly & I & K). destruct (si_ret _ _ _ _ K j st Hj) as (O & _ & R). split; [|intros e i r Hi; eapply R; exact Hi].
  intros e i [t Hi]. destruct (static_quiet inl g mat Wf Ly s con I O) as (_ & _ & Q).
  assert (X : In (GStart e) (s_tr s)). { rewrite <- (si_tr _ _ _ _ K). unfold trace_of. apply in_flat_map. exists (t, HNote (NStart e)). split; [eapply nth_error_In; exact Hi|now left]. }
  destruct (Q e X) as [r Hr]. rewrite <- (si_tr _ _ _ _ K) in Hr. unfold trace_of in Hr. apply in_flat_map in Hr as ([u a] & Ha & Hb). unfold ev_of in Hb. cbn [snd] in Hb.
  destruct a as [[]| | | | | |]; cbn [In] in Hb; try contradiction; destruct Hb as [Hb|[]]; try discriminate Hb. injection Hb as -> ->.
  apply In_nth_error in Ha as [q Hq]. exists q, r. now exists u.
Qed.
Print Assumptions C125_static_return.

(** * The parallel path *)
(** [parexec c ls h]: the schedule [ls] (as in C10) leads to [h], whose log holds what the threads have done since the last call of run. *)
Definition parexec (c : pcfg) (ls : list dlabel) (h : phst) : Prop := phrun c ph_init ls = Some h /\ p_disciplined c p_init ls.

Lemma parexec_PHI g c ls h : par_cfg g c -> parexec c ls h -> PHI c h.
Proof.
  intros (Wf & E1 & E2) [H D]. assert (HL : NoDup (p_els c)) by (rewrite E1; apply Wf). pose proof (phrun_prun c _ _ _ H) as Hp.
  destruct (phrun_PHI c HL ltac:(congruence) ls ph_init (ph_s h) (PHI_init c) D Hp) as (h' & E & _ & X). rewrite H in E. injection E as <-. exact X.
Qed.
Lemma parexec_run g c ls h j n : par_cfg g c -> parexec c ls h -> at_ (ph_log h) j n -> PRun (ph_s h) (ph_log h) (ph_tasks h) (ph_thr h) (ph_next h).
Proof. intros Hc H [t Hj]. destruct (phi_run _ _ (parexec_PHI g c ls h Hc H)) as [(E & _)|R]; [rewrite E in Hj; destruct j; discriminate Hj|exact R]. Qed.

Theorem C125_parallel_logged : forall g c ls s, par_cfg g c -> pexec c ls s -> exists h, parexec c ls h /\ ph_s h = s /\ (ls <> [] -> trace_of (ph_log h) = p_tr s).
Proof.
  intros g c ls s Hc [H D]. destruct Hc as (Wf & E1 & E2). assert (HL : NoDup (p_els c)) by (rewrite E1; apply Wf).
  destruct (phrun_PHI c HL ltac:(congruence) ls ph_init s (PHI_init c) D H) as (h & E & Es & X). exists h. split; [split; assumption|]. split; [exact Es|]. intros _.
  destruct (phi_run _ _ X) as [(El & Em & Eo)|R]; [|rewrite (pr_tr _ _ _ _ _ R), Es; reflexivity].
  pose proof (i_phase c _ (phi_inv _ _ X)) as P. unfold pphase_ok in P. rewrite Em, Eo in P. destruct P as (_ & P & _). rewrite El, <- Es, P. reflexivity.
Qed.
Print Assumptions C125_parallel_logged.

(** What the caller did before run happens before everything the elements do. *)
Theorem C125_parallel_call : forall g c ls h e j n, par_cfg g c -> parexec c ls h -> n = NStart e \/ (exists r, n = NFinish e r) -> at_ (ph_log h) j n ->
  at_ (ph_log h) 0 NCall /\ happens_before (ph_log h) 0 j.
Proof.
  intros g c ls h e j n Hc H Hn Hj. pose proof (parexec_run g c ls h j n Hc H Hj) as R. pose proof (pr_k _ _ _ _ _ R) as K. split.
  - destruct (pk_call _ _ _ _ K) as [q ->]. now exists 0.
  - destruct Hj as [t Hj]. apply (pk_hb0 _ _ _ _ K j t n Hj); destruct Hn as [->|[r ->]]; discriminate.
Qed.
Print Assumptions C125_parallel_call.

(** When run returns OK, every element has ended, and all that any of them did happens before the return. *)
Theorem C125_parallel_return : forall g c ls h j st, par_cfg g c -> parexec c ls h -> at_ (ph_log h) j (NRet st) -> (0 <= code st)%Z ->
  (forall e, In e (els g) -> exists i r, at_ (ph_log h) i (NFinish e r)) /\
  (forall e i r, at_ (ph_log h) i (NFinish e r) -> happens_before (ph_log h) i j).
Proof.
  intros g c ls h j st Hc H Hj Hst. pose proof (parexec_run g c ls h j _ Hc H Hj) as R. destruct (pr_ret _ _ _ _ _ R j st Hj) as (M1 & M2 & M3).
  assert (Ok : isErr st = false) by (apply isErr_false; exact Hst). split; [|intros e i r Hi; eapply M3; eassumption].
  intros e He. destruct H as [H D]. pose proof (phrun_prun c _ _ _ H) as Hp. destruct (C10_parallel_run g c ls (ph_s h) Hc (conj Hp D)) as (_ & _ & C & _). destruct (C st M2 Hst) as (_ & [_ A] & _).
  apply (Permutation.Permutation_in e (Permutation.Permutation_sym A)) in He. apply in_map_iff in He as ([x r] & Ex & Hx). cbn [fst] in Ex. subst x. apply in_finishes in Hx. rewrite <- (pr_tr _ _ _ _ _ R) in Hx.
  unfold trace_of in Hx. apply in_flat_map in Hx as ([u a] & Ha & Hb). unfold ev_of in Hb. cbn [snd] in Hb.
  destruct a as [[]| | | | | |]; cbn [In] in Hb; try contradiction; destruct Hb as [Hb|[]]; try discriminate Hb. injection Hb as -> ->.
  apply In_nth_error in Ha as [q Hq]. exists q, r. now exists u.
Qed.
Print Assumptions C125_parallel_return.

(** As long as no element reports an error there is no data race on the shared status. Missing: with an error there is one, see below. *)
Theorem C125_parallel_status_partial : forall g c ls h i j, par_cfg g c -> parexec c ls h -> no_error (p_tr (ph_s h)) -> ~ data_race (ph_log h) i j.
Proof.
  intros g c ls h i j Hc H Hno (Hne & Ai & Aj & W & N1 & N2).
  assert (Acc : forall k, status_access (ph_log h) k -> exists t n, nth_error (ph_log h) k = Some (t, HNote n)) by (intros k [[t X]|[t X]]; eauto).
  destruct (Acc i Ai) as (ti & ni & Ei). destruct (Acc j Aj) as (tj & nj & Ej).
  pose proof (parexec_run g c ls h i ni Hc H (ex_intro _ ti Ei)) as R. pose proof (pr_k _ _ _ _ _ R) as K.
  assert (Wr : forall k, at_ (ph_log h) k NWrite -> nth_error (ph_log h) k = Some (0, HNote NWrite)).
  { intros k [t Hk]. destruct (pr_wr _ _ _ _ _ R k t Hk) as [->|(e & r & H1 & H2)]; [exact Hk|]. apply Hno in H1. lia. }
  destruct W as [W|W]; apply Wr in W.
  - destruct (pk_w _ _ _ _ K j tj nj i Ej W Hne); contradiction.
  - destruct (pk_w _ _ _ _ K i ti ni j Ei W (fun X => Hne (eq_sym X))); contradiction.
Qed.
Print Assumptions C125_parallel_status_partial.

(** Element 0 fails on a worker; the caller, which waits for the count or an error, reads the status that the worker writes under a lock the caller does not take. *)
Definition par_race : list dlabel := [LRun; M; M; M; M; M; M; M; M; LPick 0; W; W; LWork 0 boom; W; M; M; M; M; M].
Definition par_race_h : phst := match phrun indep_c ph_init par_race with Some h => h | None => ph_init end.
Lemma indep_par : par_cfg indep_g indep_c.
Proof. split; [exact indep_wf|split; reflexivity]. Qed.
Lemma one_run_disciplined c ls : ~ In LRun ls -> p_disciplined c p_init (LRun :: ls).
Proof. intros N. cbn [p_disciplined]. split; [intros _ st E; discriminate E|]. destruct (pstep c p_init LRun); [|exact I]. now apply p_disciplined_one. Qed.
Lemma par_race_exec : parexec indep_c par_race par_race_h.
Proof. split; [vm_compute; reflexivity|]. apply one_run_disciplined. intros Hin. repeat (destruct Hin as [Hin|Hin]; [discriminate Hin|]). exact Hin. Qed.
Theorem C125_parallel_status_refuted : exists g c ls h i j st, par_cfg g c /\ parexec c ls h /\ p_out (ph_s h) = Some st /\ (code st < 0)%Z /\ data_race (ph_log h) i j.
Proof.
  exists indep_g, indep_c, par_race, par_race_h, 14, 18, boom. split; [exact indep_par|]. split; [exact par_race_exec|]. split; [vm_compute; reflexivity|]. split; [vm_compute; reflexivity|].
  split; [discriminate|]. split; [right; exists 1; vm_compute; reflexivity|]. split; [left; exists 0; vm_compute; reflexivity|]. split; [left; exists 1; vm_compute; reflexivity|]. split.
  - apply (no_hb _ [14; 15]); [vm_compute; reflexivity|left; reflexivity|]. intros [X|[X|[]]]; discriminate X.
  - intros Hb. apply hb_lt in Hb. lia.
Qed.
Print Assumptions C125_parallel_status_refuted.
(** And when run returns an error, the caller need not see what the failing element did. *)
Theorem C125_parallel_error_refuted : exists g c ls h i j e st, par_cfg g c /\ parexec c ls h /\ (code st < 0)%Z /\
  at_ (ph_log h) i (NFinish e st) /\ at_ (ph_log h) j (NRet st) /\ i < j /\ ~ happens_before (ph_log h) i j.
Proof.
  exists indep_g, indep_c, par_race, par_race_h, 11, 21, 0, boom. split; [exact indep_par|]. split; [exact par_race_exec|]. split; [vm_compute; reflexivity|]. split; [exists 1; vm_compute; reflexivity|].
  split; [exists 0; vm_compute; reflexivity|]. split; [lia|]. apply (no_hb _ [11; 12; 13; 14; 15]); [vm_compute; reflexivity|left; reflexivity|]. intros X. repeat destruct X as [X|X]; try discriminate X. destruct X.
Qed.
Print Assumptions C125_parallel_error_refuted.

(** The diamond on the static engine: 1 runs on the caller, 2 fails on a worker; the caller sees all of it when run returns the error. 0 happens before 1 and 2, which are not ordered. *)
Definition diamond_ls : list slabel :=
  [SMain st_default; SStart 0; SFinish 0 st_default; SMain st_default; SMain st_default;
   SMain st_default; SMain st_default; SStart 2; SMain st_default; SFinish 2 boom; SMain st_default; SMain st_default].
Definition diamond_h : sst * hlog := match shrun (sh_init (fun e => Nat.eqb e 1) [[0]; [1; 2]; [3]; [4]]) diamond_ls with Some h => h | None => sh_init (fun _ => false) [] end.
Example C125_static_nonvacuous : statexec diamond (fun e => Nat.eqb e 1) diamond_ls (fst diamond_h) (snd diamond_h) /\ path diamond 0 2 /\
  at_ (snd diamond_h) 4 (NFinish 0 st_default) /\ at_ (snd diamond_h) 10 (NStart 2) /\ at_ (snd diamond_h) 12 (NFinish 2 boom) /\ at_ (snd diamond_h) 15 (NRet boom) /\
  ~ happens_before (snd diamond_h) 11 12 /\ ~ happens_before (snd diamond_h) 12 11.
Proof.
  split; [exists [[0]; [1; 2]; [3]; [4]]; split; vm_compute; reflexivity|]. split; [apply t_step; split; vm_compute; auto|].
  split; [exists 1; vm_compute; reflexivity|]. split; [exists 3; vm_compute; reflexivity|]. split; [exists 3; vm_compute; reflexivity|]. split; [exists 0; vm_compute; reflexivity|]. split.
  - apply (no_hb _ [11; 14; 15]); [vm_compute; reflexivity|left; reflexivity|]. intros X. repeat destruct X as [X|X]; try discriminate X. destruct X.
  - intros Hb. apply hb_lt in Hb. lia.
Qed.
Definition par_good_h : phst := match phrun indep_c ph_init (par_schedule st_default) with Some h => h | None => ph_init end.
Example C125_parallel_nonvacuous : par_cfg indep_g indep_c /\ parexec indep_c (par_schedule st_default) par_good_h /\
  at_ (ph_log par_good_h) 39 (NFinish 1 st_default) /\ at_ (ph_log par_good_h) 47 (NRet st_default) /\ ~ happens_before (ph_log par_good_h) 36 39.
Proof.
  split; [exact indep_par|]. split.
  - split; [vm_compute; reflexivity|]. apply one_run_disciplined. intros Hin. repeat (destruct Hin as [Hin|Hin]; [discriminate Hin|]). exact Hin.
  - split; [exists 2; vm_compute; reflexivity|]. split; [exists 0; vm_compute; reflexivity|].
    apply (no_hb _ [36; 37; 38; 44; 45; 46; 47]); [vm_compute; reflexivity|left; reflexivity|]. intros X. repeat destruct X as [X|X]; try discriminate X. destruct X.
Qed.
