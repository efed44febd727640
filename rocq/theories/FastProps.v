(** C10: choice of the execution path and the two fast paths of the dynamic engine. *)
From Verif Require Import GraphModel GraphSpec TopoProofs StaticModel StaticProofs StatusProofs EngineSeqProofs DynModel DynInv DynProofs DynTerm
  FastModel FastProofs ParProofs GraphProps DynProps.
From Coq Require Import Lia.
Local Open Scope nat_scope.

(** * Which graphs take which path *)
Lemma serial_cond g bind : analysis_dag_type g bind = AllSerial -> els g <> [] ->
  length (fronts g) = 1 /\ length (els g) - 1 = linked_size g bind.
Proof.
  unfold analysis_dag_type. intros H Hne. destruct (els g) as [|x l] eqn:E; [congruence|]. cbn [is_nil orb] in H.
  destruct (Nat.eqb_spec (length (fronts g)) 1) as [H1|H1], (Nat.eqb_spec (length (x :: l) - 1) (linked_size g bind)) as [H2|H2]; auto;
    exfalso; cbn [andb] in H; destruct (_ && _); discriminate.
Qed.
Theorem C10_serial_only_chains : forall g bind, wf g -> acyclic g -> analysis_dag_type g bind = AllSerial -> exists l, is_chain g l.
Proof.
  intros g bind Hwf Ha H. destruct (els g) as [|x l] eqn:E.
  - exists []. split; [rewrite E; constructor|]. intros d e. split; [intros [He _]; rewrite E in He; contradiction|]. intros [a [b X]]. destruct a; discriminate.
  - assert (Hne : els g <> []) by (rewrite E; discriminate). destruct (serial_cond g bind H Hne) as [H1 H2].
    destruct (serial_is_chain g bind Hwf Ha Hne H1 H2) as [f [_ [Hc _]]]. eauto.
Qed.
Print Assumptions C10_serial_only_chains.

Theorem C10_parallel_only_independent : forall g bind, wf g -> analysis_dag_type g bind = AllParallel ->
  els g <> [] /\ forall d e, ~ edge g d e.
Proof.
  intros g bind Hwf H. unfold analysis_dag_type in H.
  destruct (els g) as [|x l] eqn:E; [discriminate|]. split; [discriminate|]. cbn [is_nil orb] in H.
  destruct (_ && _) in H; [discriminate|]. rewrite <- E in H.
  destruct (Nat.eqb_spec (length (els g)) (length (ends g))) as [H1|H1]; [|discriminate].
  destruct (Nat.eqb_spec (length (fronts g)) (length (ends g))) as [H2|H2]; [|discriminate].
  intros d e [He Hd]. assert (Hall : forall l, length l = length (filter (fun x => is_nil (dep g x)) l) -> forall x, In x l -> is_nil (dep g x) = true).
  { clear. induction l as [|y l IH]; intros Hl x Hx; [contradiction|]. simpl in Hl. destruct (is_nil (dep g y)) eqn:Ey.
    - simpl in Hl. destruct Hx as [<-|Hx]; [exact Ey|]. apply IH; [lia|exact Hx].
    - pose proof (filter_length_le (fun x => is_nil (dep g x)) l). lia. }
  assert (X : is_nil (dep g e) = true) by (apply (Hall (els g)); [unfold fronts in H2; rewrite H2; exact H1|exact He]).
  destruct (dep g e); [contradiction|discriminate].
Qed.
Print Assumptions C10_parallel_only_independent.

(** The shape given to an element is the one its successors justify. *)
Theorem C10_shapes : forall g bind e,
  match calc_shape g bind e with
  | ShLinkable => exists x, succ g e = [x] /\ length (dep g x) = 1 /\ bind e = bind x
  | ShTail => succ g e = []
  | ShRoot => succ g e <> [] /\ (forall x, In x (succ g e) -> length (dep g x) = 1)
  | ShNormal => exists x, In x (succ g e) /\ length (dep g x) <> 1
  end.
Proof.
  intros g bind e. destruct (calc_shape g bind e) eqn:E.
  - unfold calc_shape in E. destruct (match succ g e with [x] => _ | _ => false end); [discriminate|].
    destruct (forallb (fun x => Nat.eqb (length (dep g x)) 1) (succ g e)) eqn:F.
    + destruct (succ g e); simpl in E; discriminate.
    + clear E. induction (succ g e) as [|y l IH]; [discriminate|]. simpl in F. destruct (Nat.eqb_spec (length (dep g y)) 1) as [Hy|Hy].
      * destruct (IH F) as [x [Hx Hl]]. exists x. split; [right; exact Hx|exact Hl].
      * exists y. split; [left; reflexivity|exact Hy].
  - apply (linkable_spec g bind e). unfold linkable. rewrite E. reflexivity.
  - unfold calc_shape in E. destruct (match succ g e with [x] => _ | _ => false end); [discriminate|].
    destruct (negb (is_nil (succ g e)) && forallb _ _) eqn:F; [|destruct (is_nil (succ g e)); discriminate].
    apply andb_prop in F. destruct F as [F1 F2]. split; [intros X; rewrite X in F1; discriminate|].
    intros x Hx. rewrite forallb_forall in F2. apply Nat.eqb_eq, F2, Hx.
  - unfold calc_shape in E. destruct (match succ g e with [x] => _ | _ => false end); [discriminate|].
    destruct (_ && _); [discriminate|]. destruct (succ g e); [reflexivity|discriminate].
Qed.
Print Assumptions C10_shapes.

(** * The serial path *)
(** [prev] is the status left by the previous run (default after init). The run ends (no fuel is missing), executes the
    chain in order one element at a time, stops right after the first failure and returns its status. *)
Theorem C10_serial_run : forall g bind res prev, wf g -> acyclic g -> analysis_dag_type g bind = AllSerial -> prev = st_default \/ (code prev < 0)%Z ->
  exists l tr out, is_chain g l /\ serial_run g res prev = Some (tr, out) /\
    (((forall e, In e l -> (0 <= code (res e))%Z) /\ tr = seq_trace res l /\ all_ran g tr /\ out = st_default) \/
     (exists p f q, l = p ++ f :: q /\ (forall e, In e p -> (0 <= code (res e))%Z) /\ (code (res f) < 0)%Z /\ tr = seq_trace res (p ++ [f]) /\ out = res f)).
Proof.
  intros g bind res prev Hwf Ha H Hprev.
  assert (Hp : prepare_status prev = st_default).
  { unfold prepare_status. destruct Hprev as [->|Hn]; [reflexivity|]. destruct (isOK prev) eqn:X; [apply isOK_code in X; lia|].
    unfold st_reset. unfold isOK in X. rewrite X. reflexivity. }
  destruct (els g) as [|x l] eqn:E.
  - exists [], [], st_default. split; [split; [rewrite E; constructor|]|].
    + intros d e. split; [intros [He _]; rewrite E in He; contradiction|]. intros [a [b X]]. destruct a; discriminate.
    + unfold serial_run, fronts. rewrite E. simpl. rewrite Hp. split; [reflexivity|]. left. split; [intros e []|]. split; [reflexivity|]. split; [|reflexivity].
      split; rewrite E; constructor.
  - assert (Hne : els g <> []) by (rewrite E; discriminate). destruct (serial_cond g bind H Hne) as [H1 H2].
    destruct (serial_is_chain g bind Hwf Ha Hne H1 H2) as [f [Ef [Hc Hn]]].
    unfold serial_run. rewrite Ef, Hp. set (N := length (els g)) in *.
    destruct (serial_loop (S N) g res f st_default) as [[tr out]|] eqn:Es; [|exfalso; revert Es; apply serial_loop_total; exact Hn].
    exists (walk g N f), tr, out. split; [exact Hc|]. split; [reflexivity|].
    destruct (serial_loop_walk g res N f (tr, out) st_default Hn eq_refl Es) as [[Hf Ht]|[p [f' [q [Eo [Hf [Hfe Ht]]]]]]].
    + inversion Ht; subst. left. rewrite Forall_forall in Hf. split; [exact Hf|]. split; [reflexivity|]. split; [|reflexivity].
      destruct Hc as [Hc _]. split; [rewrite seq_trace_starts|rewrite seq_trace_finishes]; exact Hc.
    + inversion Ht; subst. right. exists p, f', q. rewrite Forall_forall in Hf. auto.
Qed.
Print Assumptions C10_serial_run.

(** * The parallel path *)
(** The task matrix lists every element once, in order, in at most [thd] non-empty rows of at most ceil(n / thd) elements. *)
Theorem C10_matrix : forall g bind thd, wf g -> analysis_dag_type g bind = AllParallel -> 0 < thd ->
  exists rows, parallel_matrix thd (els g) = Some (Some rows) /\ concat rows = els g /\ length rows <= thd /\
    (forall r, In r rows -> 0 < length r <= (length (els g) + thd - 1) / thd).
Proof. intros g bind thd Hwf H Ht. apply parallel_matrix_spec; [exact Ht|]. apply (C10_parallel_only_independent g bind Hwf H). Qed.
Print Assumptions C10_matrix.
(** Without threads, or without elements, setup is refused; there is no other reason. *)
Theorem C10_matrix_refused : forall thd arr, parallel_matrix thd arr = None <-> thd = 0 \/ arr = [].
Proof.
  intros thd arr. split.
  - intros E. destruct thd as [|thd]; [now left|]. destruct arr as [|x arr]; [now right|]. destruct (parallel_matrix_spec (S thd) (x :: arr)) as (rows & H & _); [lia|discriminate|]. congruence.
  - intros [->| ->]; [reflexivity|]. unfold parallel_matrix. destruct (Nat.leb_spec thd 0); [reflexivity|]. unfold task_num_per_thd. cbn [length]. rewrite Nat.div_0_l, Nat.mod_0_l by lia. reflexivity.
Qed.
Print Assumptions C10_matrix_refused.

(** Configuration of a parallel run of [g] over a matrix with the contents given by C10_matrix. *)
Definition par_cfg (g : graph) (c : pcfg) : Prop := wf g /\ p_els c = els g /\ concat (p_rows c) = els g.
(** Any number of runs; after a failed one, the next call waits for an idle pool. *)
Definition pexec (c : pcfg) (ls : list dlabel) (s : pst) : Prop := prun c p_init ls = Some s /\ p_disciplined c p_init ls.

Lemma pexec_inv g c ls s : par_cfg g c -> pexec c ls s -> PInv c s.
Proof.
  intros [Hwf [E1 E2]] [H D]. eapply (prun_inv c); [| |apply PInv_init|exact D|exact H]; [rewrite E1; apply Hwf|congruence].
Qed.
Lemma p_inv_trace c s : PInv c s -> p_tr s = [] \/ PI c (p_num s) (p_stat s) (p_tr s) (bag s).
Proof.
  intros I. pose proof (i_phase c s I) as P. unfold pphase_ok in P. destruct (p_main s); auto; try (left; tauto); try (right; tauto).
  destruct (p_out s); [right; tauto|left; tauto].
Qed.

(** Every element starts at most once; OK is returned only after each one ran and none failed; an error that is returned
    is the status of an element that failed. *)
Theorem C10_parallel_run : forall g c ls s, par_cfg g c -> pexec c ls s ->
  starts_once (p_tr s) /\ incl (starts (p_tr s)) (els g) /\
  (forall st, p_out s = Some st -> (0 <= code st)%Z -> st = st_default /\ all_ran g (p_tr s) /\ no_error (p_tr s) /\ p_pool s = []) /\
  (forall st, p_out s = Some st -> (code st < 0)%Z -> exists e, In (GFinish e st) (p_tr s)).
Proof.
  intros g c ls s Hc H. pose proof (pexec_inv g c ls s Hc H) as I. destruct Hc as [Hwf [E1 E2]].
  assert (HL : NoDup (p_els c)) by (rewrite E1; apply Hwf).
  split; [|split].
  - destruct (p_inv_trace c s I) as [E|R]; [rewrite E; constructor|]. apply cnt_nodup. intros e. pose proof (q_once _ _ _ _ _ R e). lia.
  - destruct (p_inv_trace c s I) as [E|R]; [rewrite E; intros e []|]. intros e He. rewrite <- E1. apply (q_started _ _ _ _ _ R e He).
  - assert (Em : forall st, p_out s = Some st -> PI c (p_num s) (p_stat s) (p_tr s) (bag s) /\ st = p_stat s /\ done c s).
    { intros st Ho. pose proof (i_phase c s I) as P. pose proof (i_out c s I) as O. unfold pphase_ok in P.
      destruct (p_main s); try (rewrite O in Ho by discriminate; discriminate). rewrite Ho in P. exact P. }
    split.
    + intros st Ho Hst. destruct (Em st Ho) as [R [E D]]. destruct D as [D|D]; [|apply isErr_code in D; subst; lia].
      destruct (PI_full c HL _ _ _ _ R D) as [F1 [F2 [F3 F4]]]. rewrite E1 in F1, F2.
      split; [destruct (q_stat _ _ _ _ _ R) as [X|[X _]]; [congruence|apply isErr_code in X; subst; lia]|].
      split; [split; assumption|]. split; [destruct F3 as [F3|F3]; [exact F3|apply isErr_code in F3; subst; lia]|].
      destruct (p_pool s) as [|e l] eqn:Ep; [reflexivity|exfalso]. apply (F4 (PTest e)). unfold bag. rewrite Ep. apply in_or_app. right. left. reflexivity.
    + intros st Ho Hst. destruct (Em st Ho) as [R [E _]]. destruct (q_stat _ _ _ _ _ R) as [X|[_ X]]; [rewrite E, X in Hst; discriminate|]. rewrite E. exact X.
Qed.
Print Assumptions C10_parallel_run.

(** run() cannot block, whatever the elements return, and every run is finite (spurious wake ups apart). *)
Theorem C10_parallel_returns : forall g c ls s, par_cfg g c -> 0 < p_workers c -> pexec c ls s ->
  (p_main s <> QIdle -> exists l s', internal l /\ pstep c s l = Some s') /\
  (exists n, forall ls' s', ~ In LRun ls' -> prun c s ls' = Some s' -> length ls' <= n + sumf spur ls').
Proof.
  intros g c ls s Hc Hw H. pose proof (pexec_inv g c ls s Hc H) as I. destruct Hc as [Hwf [E1 E2]]. split.
  - intros Hm. apply (pprogress c); auto. rewrite E1; apply Hwf.
  - exists (pmeasure c s). intros ls' s' Hn Hr. pose proof (prun_measure c ltac:(congruence) ls' s s' Hn Hr). lia.
Qed.
Print Assumptions C10_parallel_returns.

(** * Non-vacuity *)
Definition chain_g : graph := graph_of (dep_run blank [OAdd 0 [Some 2]; OAdd 1 [Some 0]]) [0; 1; 2].
Lemma chain_wf : wf chain_g.
Proof.
  apply C03_reachable_graphs_wf; [intros e; split; reflexivity|repeat constructor; simpl; intuition discriminate|].
  intros e He. simpl in He. intuition subst; vm_compute; intros x Hx; intuition.
Qed.
Example C10_serial_nonvacuous : wf chain_g /\ acyclic chain_g /\ analysis_dag_type chain_g (fun _ => (-1)%Z) = AllSerial /\
  serial_run chain_g (fun e => if Nat.eqb e 0 then boom else st_default) boom = Some ([GStart 2; GFinish 2 st_default; GStart 0; GFinish 0 boom], boom).
Proof. split; [exact chain_wf|]. split; [apply acyclic_by_check; [exact chain_wf|reflexivity]|]. split; vm_compute; reflexivity. Qed.
(** With different bindings the same chain takes the common path; the diamond does too. *)
Example C10_other_paths : analysis_dag_type chain_g (fun e => Z.of_nat e) = Common /\ analysis_dag_type diamond (fun _ => (-1)%Z) = Common.
Proof. split; vm_compute; reflexivity. Qed.
Definition indep_g : graph := graph_of blank [0; 1; 2; 3; 4].
Lemma indep_wf : wf indep_g.
Proof.
  change indep_g with (graph_of (dep_run blank []) [0; 1; 2; 3; 4]).
  apply C03_reachable_graphs_wf; [intros e; split; reflexivity|repeat constructor; simpl; intuition discriminate|].
  intros e He. split; intros x [].
Qed.
Definition indep_c : pcfg := mkPC (els indep_g) [[0; 1; 2]; [3; 4]] 2 0.
Definition par_schedule (r : status) : list dlabel :=
  [LRun; M; M; M; M; LPick 0; W; W; W; M; M; M; W; W;       (* element 0 runs while the others are queued *)
   LPick 0; W; W; LPick 0; LWork 1 st_default; LWork 1 st_default; LWork 1 st_default; LWork 1 st_default; LWork 1 st_default;
   M; M; M; M; M; M;                                        (* the caller goes to sleep *)
   LPick 0; LWork 1 st_default; LWork 1 st_default; LWork 1 st_default; LWork 1 st_default; LWork 1 st_default;
   LPick 0; LWork 1 st_default; LWork 1 st_default; LWork 1 st_default; LWork 1 st_default; LWork 1 st_default;
   LWork 0 r; W; W; W] ++ (if isErr r then [W] else []) ++  (* element 1 ends last *)
  [M; M; M].
Lemma p_disciplined_one c : forall ls s0, ~ In LRun ls -> p_disciplined c s0 ls.
Proof.
  induction ls as [|x l IH]; intros s0 Hn; simpl; [exact I|]. split; [intros ->; exfalso; apply Hn; left; reflexivity|].
  destruct (pstep c s0 x); [|exact I]. apply IH. intros Hx; apply Hn; right; exact Hx.
Qed.
Example C10_parallel_nonvacuous : wf indep_g /\ analysis_dag_type indep_g (fun _ => (-1)%Z) = AllParallel /\
  parallel_matrix 2 (els indep_g) = Some (Some (p_rows indep_c)) /\ par_cfg indep_g indep_c /\
  (exists s, pexec indep_c (par_schedule st_default) s /\ p_out s = Some st_default /\ starts (p_tr s) = [0; 1; 2; 3; 4]) /\
  (exists s, pexec indep_c (par_schedule boom) s /\ p_out s = Some boom).
Proof.
  split; [exact indep_wf|]. split; [vm_compute; reflexivity|]. split; [vm_compute; reflexivity|]. split; [split; [exact indep_wf|split; reflexivity]|].
  split; eexists; (split; [split; [vm_compute; reflexivity|]|]).
  2, 4: vm_compute; auto.
  all: cbn [p_disciplined par_schedule]; (split; [intros _ st E; discriminate E|]); destruct (pstep indep_c p_init LRun); [|exact I];
    apply (p_disciplined_one indep_c); intros Hin; repeat (destruct Hin as [Hin|Hin]; [discriminate Hin|]); exact Hin.
Qed.
