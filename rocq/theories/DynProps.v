(** C06-C09: the dynamic engine. *)
From Verif Require Import GraphModel GraphSpec TopoProofs StaticProofs StatusProofs DynModel DynInv DynProofs DynTerm GraphProps.
From Coq Require Import Lia.
Local Open Scope nat_scope.

(** [exec c ls s]: the schedule [ls] of calls of run(), steps of the calling thread, steps of the workers, task pick ups
    and spurious wake ups leads from the freshly initialised engine to [s]. run() may be called any number of times; the
    only requirement ([disciplined]) is that after a run that returned an error it is called again only when the thread pool is idle. *)
Definition exec (c : dcfg) (ls : list dlabel) (s : dst) : Prop :=
  drun c (d_init c) ls = Some s /\ disciplined c (d_init c) ls.
(** Events of the current run, or of the last one when none is active. *)
Definition trace (s : dst) : list gevent := sh_tr (d_sh s).
Definition no_error (tr : list gevent) : Prop := forall e r, In (GFinish e r) tr -> (0 <= code r)%Z.

Lemma exec_inv c ls s : wf (c_g c) -> acyclic (c_g c) -> exec c ls s -> Inv c s.
Proof. intros Hwf Ha [H D]. eapply drun_inv; [exact Hwf|exact Ha|apply Inv_init|exact D|exact H]. Qed.

Lemma inv_trace c s : Inv c s -> trace s = [] \/ RI c (d_sh s) (all_ops s).
Proof.
  intros I. pose proof (v_phase c s I) as P. unfold trace. destruct (d_main s); auto; try (left; tauto).
  destruct (d_out s); [right; tauto|left; tauto].
Qed.
Lemma inv_once c s : Inv c s -> starts_once (trace s) /\ NoDup (map fst (finishes (trace s))) /\ incl (starts (trace s)) (els (c_g c)).
Proof.
  intros I. destruct (inv_trace c s I) as [E|R].
  - unfold starts_once. rewrite E. repeat split; try constructor. intros x [].
  - split; [apply cnt_nodup; intros x; apply (started_le1 c _ _ x R)|]. split.
    + apply cnt_nodup. intros x. pose proof (r_body c _ _ R x). pose proof (started_le1 c _ _ x R). unfold trace. lia.
    + intros x Hx. apply cnt_in in Hx. apply (r_started c _ _ R x Hx).
Qed.

Lemma path_finished g tr f e : starts_after_deps g tr -> (forall d v, In (GFinish d v) tr -> In (GStart d) tr) ->
  path g f e -> In (GStart e) tr -> exists r, In (GFinish f r) tr /\ (0 <= code r)%Z.
Proof.
  intros Hd Hfs Hp. induction Hp as [f e [_ Hin]|f m e _ IH1 _ IH2]; intros Hs.
  - apply in_split in Hs. destruct Hs as [t1 [t2 E]]. destruct (Hd t1 e t2 E f Hin) as [r [Hr Hc]]. exists r. split; [|exact Hc].
    rewrite E. apply in_or_app. left. exact Hr.
  - destruct (IH2 Hs) as [r [Hr _]]. apply IH1. eapply Hfs; exact Hr.
Qed.

(** * C06 *)
Theorem C06_starts_after_deps : forall c ls s, wf (c_g c) -> acyclic (c_g c) -> exec c ls s ->
  starts_after_deps (c_g c) (trace s) /\ starts_once (trace s) /\ incl (starts (trace s)) (els (c_g c)).
Proof.
  intros c ls s Hwf Ha H. pose proof (exec_inv c ls s Hwf Ha H) as I. destruct (inv_once c s I) as [H1 [_ H2]].
  split; [|split; assumption]. destruct (inv_trace c s I) as [E|R]; [|apply (r_deps c _ _ R)].
  rewrite E. intros t1 e t2 Ht. destruct t1; discriminate.
Qed.
Print Assumptions C06_starts_after_deps.

(** * C07 *)
Theorem C07_ok_means_all_ran_once : forall c ls s st, wf (c_g c) -> acyclic (c_g c) -> exec c ls s ->
  d_out s = Some st -> (0 <= code st)%Z ->
  st = st_default /\ all_ran (c_g c) (trace s) /\ no_error (trace s) /\
  (forall e, In e (els (c_g c)) -> sh_left (d_sh s) e = left0 (c_g c) e) /\
  d_pool s = [] /\
  (forall p o, In p (d_act s) -> In o p -> o = ONotify \/ o = OLockNotify \/ exists e, o = ODecs e [] None).
Proof.
  intros c ls s st Hwf Ha H Ho Hc. pose proof (exec_inv c ls s Hwf Ha H) as I. pose proof (v_phase c s I) as P.
  assert (Em : d_main s = MIdle). { pose proof (v_out c s I) as V. destruct (d_main s); try reflexivity; rewrite V in Ho by discriminate; discriminate. }
  rewrite Em, Ho in P. destruct P as [R [Est Hd]]. destruct Hd as [Hd|Hd]; [|apply isErr_code in Hd; lia].
  destruct (done_quiet c Hwf Ha _ _ R Hd) as [D1 [D2 [D3 D4]]]. pose proof (done_harmless c Hwf Ha _ _ R Hd) as Hh.
  split; [congruence|]. split; [exact D3|]. split; [exact D2|]. split; [exact D4|]. split.
  - destruct (d_pool s) as [|e l] eqn:Ep; [reflexivity|exfalso].
    destruct (Hh (OExec e)) as [X|[X|[e0 [X _]]]]; try discriminate X. unfold all_ops. rewrite Ep. apply in_or_app. right. apply in_or_app. right. left. reflexivity.
  - intros p o Hp Hop. destruct (Hh o) as [X|[X|[e0 [X _]]]]; eauto. unfold all_ops. apply in_or_app. right. apply in_or_app. left.
    apply in_concat. eauto.
Qed.
Print Assumptions C07_ok_means_all_ran_once.

(** * C08 *)
(** As long as run() has not returned and no element has failed, some thread can step. *)
Theorem C08_no_deadlock : forall c ls s, wf (c_g c) -> acyclic (c_g c) -> 0 < c_workers c -> exec c ls s ->
  d_main s <> MIdle -> no_error (trace s) -> exists l s', internal l /\ dstep c s l = Some s'.
Proof.
  intros c ls s Hwf Ha Hw H Hm Hno. destruct (progress c Hwf Ha s (exec_inv c ls s Hwf Ha H) Hw Hm) as [X|[_ [_ [_ X]]]]; [exact X|contradiction].
Qed.
Print Assumptions C08_no_deadlock.

(** Number of steps of one call of run() of a fresh engine, spurious wake ups excepted. *)
Definition step_bound (c : dcfg) : nat := let n := length (els (c_g c)) in 9 + c_epoch c + (4 * n + 39) * n.
(** Every execution is finite: from any point on, only finitely many steps (plus at most 5 per spurious wake up) are
    possible without a new call of run(), whether or not elements fail; for the first run the bound is explicit. *)
Theorem C08_bounded : forall c, wf (c_g c) -> acyclic (c_g c) ->
  (forall ls s, exec c ls s -> exists n, forall ls' s', ~ In LRun ls' -> drun c s ls' = Some s' -> length ls' <= n + sumf spur ls') /\
  (forall ls' s', ~ In LRun ls' -> drun c (d_init c) (LRun :: ls') = Some s' -> length ls' <= step_bound c + sumf spur ls').
Proof.
  intros c Hwf Ha. split.
  - intros ls s H. exists (measure c s). intros ls' s' Hn Hr. pose proof (drun_measure c Hwf Ha ls' s s' (exec_inv c ls s Hwf Ha H) Hn Hr). lia.
  - intros ls' s' Hn Hr. simpl in Hr.
    set (s1 := mkD _ _ _ _ _) in Hr.
    assert (I1 : Inv c s1).
    { apply (Inv_step c Hwf Ha (d_init c) LRun); [apply Inv_init| |reflexivity]. intros _ st E. discriminate E. }
    pose proof (drun_measure c Hwf Ha ls' s1 s' I1 Hn Hr) as Hm. unfold measure in Hm at 2. unfold mpot, all_ops, s1 in Hm. simpl in Hm.
    unfold step_bound. unfold wP, wK in Hm. lia.
Qed.
Print Assumptions C08_bounded.

Lemma idle_has_out c : forall ls s s', (d_main s = MIdle -> d_out s <> None) -> drun c s ls = Some s' -> d_main s' = MIdle -> d_out s' <> None.
Proof.
  induction ls as [|l ls IH]; intros s s' Q H; simpl in H; [inversion H; subst; exact Q|].
  destruct (dstep c s l) as [s1|] eqn:E; [|discriminate]. apply (IH s1); [|exact H]. clear IH H.
  destruct l as [|r|i r|i|]; simpl in E.
  - destruct (d_main s); inversion E; subst; simpl; discriminate.
  - destruct (d_main s) as [| | |[|o l]|[|n]| | | | | |]; try discriminate E.
    4: { destruct (op_sem c (d_sh s) o r) as [[[sh' new] enq] nt]. inversion E; subst; simpl. discriminate. }
    all: inversion E; subst; simpl; try discriminate;
      match goal with |- context [if ?b then _ else _] => destruct b; discriminate | _ => idtac end.
  - destruct (nth_error (d_act s) i) as [[|o rest]|]; try discriminate. destruct (op_enabled (d_main s) o); [|discriminate].
    destruct (op_sem c (d_sh s) o r) as [[[sh' new] enq] nt]. inversion E; subst; simpl. intros X. apply Q. destruct (d_main s); simpl in X; try discriminate X; [reflexivity|]. destruct nt; discriminate.
  - destruct (Nat.ltb _ _); [|discriminate]. destruct (nth_error (d_pool s) i); [|discriminate]. inversion E; subst; simpl. exact Q.
  - destruct (d_main s); inversion E; subst; simpl; discriminate.
Qed.

(** Together: an execution without failures that cannot be continued has returned OK after running everything. *)
Theorem C08_maximal_run_returns_ok : forall c ls s, wf (c_g c) -> acyclic (c_g c) -> 0 < c_workers c ->
  exec c (LRun :: ls) s -> no_error (trace s) -> (forall l s', internal l -> dstep c s l <> Some s') ->
  d_main s = MIdle /\ d_out s = Some st_default /\ all_ran (c_g c) (trace s).
Proof.
  intros c ls s Hwf Ha Hw H Hno Hst. pose proof (exec_inv c _ s Hwf Ha H) as I.
  assert (Em : d_main s = MIdle).
  { assert (D : d_main s = MIdle \/ d_main s <> MIdle) by (destruct (d_main s); auto; right; discriminate).
    destruct D as [D|D]; [exact D|exfalso].
    destruct (progress c Hwf Ha s I Hw D) as [[l [s' [X1 X2]]]|[_ [_ [_ X]]]]; [eapply Hst; eassumption|contradiction]. }
  split; [exact Em|].
  assert (Hout : d_out s <> None).
  { destruct H as [H _]. simpl in H. eapply idle_has_out; [|exact H|exact Em]. simpl. discriminate. }
  destruct (d_out s) as [st|] eqn:Eo; [|congruence].
  assert (Hc : (0 <= code st)%Z).
  { pose proof (v_phase c s I) as P. rewrite Em, Eo in P. destruct P as [R [E _]]. subst st. destruct (r_stat c _ _ R) as [E|[E [e He]]].
    - rewrite E. discriminate.
    - apply Hno in He. exact He. }
  destruct (C07_ok_means_all_ran_once c _ s st Hwf Ha H Eo Hc) as [E [Hr _]]. subst st. auto.
Qed.
Print Assumptions C08_maximal_run_returns_ok.

(** * C09 *)
Theorem C09_error_reported : forall c ls s, wf (c_g c) -> acyclic (c_g c) -> exec c ls s ->
  (forall st, d_out s = Some st -> (code st < 0)%Z -> exists e, In (GFinish e st) (trace s)) /\
  (forall st e r, d_out s = Some st -> In (GFinish e r) (trace s) -> (code r < 0)%Z -> (code st < 0)%Z) /\
  (forall f r e, In (GFinish f r) (trace s) -> (code r < 0)%Z -> path (c_g c) f e -> ~ In (GStart e) (trace s)).
Proof.
  intros c ls s Hwf Ha H. pose proof (exec_inv c ls s Hwf Ha H) as I. split; [|split].
  - intros st Ho Hc. pose proof (v_phase c s I) as P.
    assert (Em : d_main s = MIdle). { pose proof (v_out c s I) as V. destruct (d_main s); try reflexivity; rewrite V in Ho by discriminate; discriminate. }
    rewrite Em, Ho in P. destruct P as [R [E _]]. subst st. destruct (r_stat c _ _ R) as [E|[_ E]]; [|exact E]. rewrite E in Hc. discriminate.
  - intros st e r Ho Hf Hc. destruct (Z_lt_le_dec (code st) 0) as [|Hge]; [assumption|].
    destruct (C07_ok_means_all_ran_once c ls s st Hwf Ha H Ho Hge) as [_ [_ [Hno _]]]. apply Hno in Hf. lia.
  - intros f r e Hf Hc Hp Hs.
    destruct (C06_starts_after_deps c ls s Hwf Ha H) as [Hd _]. destruct (inv_once c s I) as [_ [Hnd _]].
    destruct (path_finished (c_g c) (trace s) f e Hd) as [r' [Hr' Hc']]; auto.
    { intros d v Hv. destruct (inv_trace c s I) as [E|R]; [rewrite E in Hv; contradiction|].
      apply in_starts, cnt_in. pose proof (r_body c _ _ R d).
      assert (0 < cnt d (map fst (finishes (trace s)))) by (apply cnt_in, in_map_iff; exists (d, v); split; [reflexivity|apply in_finishes; exact Hv]).
      unfold trace in *. lia. }
    assert (r' = r) by (eapply nodup_fst_unique; [exact Hnd|apply in_finishes; eassumption|apply in_finishes; eassumption]). subst; lia.
Qed.
Print Assumptions C09_error_reported.

(** * C51: does run() always return? *)
(** Partial: whatever fails, as long as run() has not returned either some thread can step, or every task is over, the
    error is recorded and the caller is asleep; then one more wake up makes run() return that error. *)
Theorem C51_returns_partial : forall c ls s, wf (c_g c) -> acyclic (c_g c) -> 0 < c_workers c -> exec c ls s -> d_main s <> MIdle ->
  (exists l s', internal l /\ dstep c s l = Some s') \/
  (d_main s = MAsleep /\ d_act s = [] /\ d_pool s = [] /\ (code (sh_stat (d_sh s)) < 0)%Z /\
   exists s', drun c s [LSpurious; LMain st_default; LMain st_default; LMain st_default; LMain st_default] = Some s' /\
     d_out s' = Some (sh_stat (d_sh s))).
Proof.
  intros c ls s Hwf Ha Hw H Hm. pose proof (exec_inv c ls s Hwf Ha H) as I.
  destruct (progress c Hwf Ha s I Hw Hm) as [X|[Em [Ea [Ep Hn]]]]; [left; exact X|right].
  assert (Hr : recorded s).
  { destruct H as [H D]. eapply (recorded_run c Hwf Ha); [apply Inv_init| |exact D|exact H]. left. intros e r []. }
  assert (He : isErr (sh_stat (d_sh s)) = true).
  { destruct Hr as [Hr|[Hr|[e [r [_ Hr]]]]]; [contradiction|exact Hr|]. unfold all_ops in Hr. rewrite Em, Ea, Ep in Hr. contradiction. }
  split; [exact Em|]. split; [exact Ea|]. split; [exact Ep|]. split; [apply isErr_code; exact He|].
  pose proof (v_wait c s I) as Wt. unfold waiter_ok, all_ops in Wt. rewrite Em, Ea, Ep in Wt. simpl in Wt.
  assert (El : Nat.leb (total_end c) (sh_fin (d_sh s)) = false) by (apply Nat.leb_gt; lia).
  eexists. split.
  - cbn [drun dstep d_main]. rewrite Em. cbn [dstep d_main d_sh d_pool d_act d_out]. rewrite El. cbn [dstep d_main d_sh d_pool d_act d_out]. rewrite He. reflexivity.
  - reflexivity.
Qed.
Print Assumptions C51_returns_partial.

(** The notification of an error is sent without the mutex: it can fall between the caller's test of the status and its
    going to sleep. Then nothing is left to run, an error is recorded, and run() never returns: the only possible step is
    a spurious wake up. (Two sources 0 and 1, sink 2; element 0 fails.) *)
Definition join_g : graph := graph_of (dep_run blank [OAdd 2 [Some 0; Some 1]]) [0; 1; 2].
Definition join_c : dcfg := mkCfg join_g (fun _ => (-1)%Z) 1 0.
Definition boom : status := st_err "boom".
Definition M := LMain st_default.
Definition W := LWork 0 st_default.
Definition hang_schedule : list dlabel :=
  [LRun; M; M;                      (* run(), prepareRun, counter reset *)
   M; M;                            (* element 0 goes to the pool *)
   LPick 0; W;                      (* the worker starts element 0 *)
   M; M; M; M; M; M; M;             (* the caller runs element 1 in place: its successor still waits for 0 *)
   M; M; M; M;                      (* fatWait: lock, count not reached, status fine *)
   LWork 0 boom; W; W;              (* element 0 fails: status recorded, notification sent, nobody is waiting yet *)
   M].                              (* the caller goes to sleep *)
Lemma acyclic_by_check g : wf g -> isDag g = Some true -> acyclic g.
Proof. intros Hwf H. destruct (isDag_spec g Hwf) as [_ H2]. destruct (acyclic_dec g Hwf) as [|Hn]; [assumption|]. rewrite (H2 Hn) in H. discriminate. Qed.
Lemma join_wf : wf join_g.
Proof.
  apply C03_reachable_graphs_wf; [intros e; split; reflexivity|repeat constructor; simpl; intuition discriminate|].
  intros e He. simpl in He. intuition subst; vm_compute; intros x Hx; intuition.
Qed.
Lemma join_acyclic : acyclic join_g.
Proof. apply acyclic_by_check; [exact join_wf|vm_compute; reflexivity]. Qed.
(** Executable form of [disciplined] for schedules with one run. *)
Lemma disciplined_one_run c ls s : drun c (d_init c) (LRun :: ls) = Some s -> ~ In LRun ls -> disciplined c (d_init c) (LRun :: ls).
Proof.
  assert (G : forall l s0, ~ In LRun l -> disciplined c s0 l).
  { induction l as [|x l IH]; intros s0 Hn; simpl; [exact I|]. split; [intros ->; exfalso; apply Hn; left; reflexivity|].
    destruct (dstep c s0 x); [|exact I]. apply IH. intros Hx; apply Hn; right; exact Hx. }
  intros _ Hn. cbn [disciplined]. split; [intros _ st E; discriminate E|]. destruct (dstep c (d_init c) LRun); [|exact I]. apply G; exact Hn.
Qed.

Theorem C51_always_returns_refuted : exists s,
  wf (c_g join_c) /\ acyclic (c_g join_c) /\ exec join_c hang_schedule s /\
  In (GFinish 0 boom) (trace s) /\ d_main s = MAsleep /\ d_out s = None /\
  (forall l s', dstep join_c s l = Some s' -> l = LSpurious).
Proof.
  eexists. split; [exact join_wf|]. split; [exact join_acyclic|]. split; [|split; [|split; [|split]]].
  - assert (E : drun join_c (d_init join_c) hang_schedule = drun join_c (d_init join_c) hang_schedule) by reflexivity.
    split; [vm_compute; reflexivity|]. eapply disciplined_one_run; [vm_compute; reflexivity|].
    intros Hin. repeat (destruct Hin as [Hin|Hin]; [discriminate Hin|]). exact Hin.
  - vm_compute. auto.
  - vm_compute. reflexivity.
  - vm_compute. reflexivity.
  - intros l s' H. destruct l as [|r|i r|i|]; [vm_compute in H; discriminate..| | |reflexivity].
    + simpl in H. destruct i; discriminate.
    + simpl in H. destruct i; discriminate.
Qed.
Print Assumptions C51_always_returns_refuted.

(** * The requirement on repeated calls cannot be dropped *)
(** 0 and 1 are sources, 2 follows 1. The first run fails in 1 while 0 is still running on the worker. When run() is called
    again at once, the end of the first run's 0 is counted for the second run: it returns OK although 0 has not run. *)
Definition strag_g : graph := graph_of (dep_run blank [OAdd 2 [Some 1]]) [0; 1; 2].
Definition strag_c : dcfg := mkCfg strag_g (fun _ => (-1)%Z) 2 0.
Lemma strag_wf : wf strag_g.
Proof.
  apply C03_reachable_graphs_wf; [intros e; split; reflexivity|repeat constructor; simpl; intuition discriminate|].
  intros e He. simpl in He. intuition subst; vm_compute; intros x Hx; intuition.
Qed.
Definition strag_schedule : list dlabel :=
  [LRun; M; M; M; M; LPick 0; W;          (* 0 runs on the worker *)
   M; M; LMain boom; M; M;                (* 1 fails in the caller *)
   M; M; M; M; M; M;                      (* run() returns the error *)
   LRun; M; M; M; M;                      (* run() again: 0 queued a second time *)
   W; W; W;                               (* the first run's 0 ends and is counted *)
   M; M; M; M; M; M; M; M; M; M; M; M; M; M; M].      (* 1 and 2 run in the caller; all ends counted; OK *)
Theorem C07_overlapping_runs_refuted : exists s,
  wf (c_g strag_c) /\ acyclic (c_g strag_c) /\ drun strag_c (d_init strag_c) strag_schedule = Some s /\
  d_out s = Some st_default /\ ~ In (GStart 0) (trace s) /\ d_pool s = [0].
Proof.
  eexists. split; [exact strag_wf|]. split; [apply acyclic_by_check; [exact strag_wf|vm_compute; reflexivity]|].
  split; [vm_compute; reflexivity|]. vm_compute. split; [reflexivity|]. split; [|reflexivity]. intuition discriminate.
Qed.
Print Assumptions C07_overlapping_runs_refuted.

(** * Non-vacuity *)
(** The diamond on two workers: a complete first run and a second run stopped half way; and a failing run. *)
Definition diamond_c : dcfg := mkCfg diamond (fun _ => (-1)%Z) 2 1.
(** A simple scheduler used only to produce example schedules: workers first, then the queue, then the caller. *)
Fixpoint greedy (res : list gevent -> status) (n : nat) (s : dst) : list dlabel :=
  match n with
  | O => []
  | S n =>
      let try l k := match dstep diamond_c s l with Some s' => l :: greedy res n s' | None => k tt end in
      let r := res (sh_tr (d_sh s)) in
      try (LWork 1 r) (fun _ => try (LPick 0) (fun _ => try (LWork 0 r) (fun _ => try (LMain r) (fun _ => []))))
  end.
Lemma disciplined_app c : forall l1 s s1 l2, disciplined c s l1 -> drun c s l1 = Some s1 -> disciplined c s1 l2 -> disciplined c s (l1 ++ l2).
Proof.
  induction l1 as [|l l1 IH]; intros s s1 l2 D H D2; simpl in *; [inversion H; subst; exact D2|].
  destruct D as [D1 D]. split; [exact D1|]. destruct (dstep c s l) as [s'|]; [|exact I]. eapply IH; eassumption.
Qed.
Lemma disciplined_norun c : forall l s, ~ In LRun l -> disciplined c s l.
Proof.
  induction l as [|x l IH]; intros s0 Hn; simpl; [exact I|]. split; [intros ->; exfalso; apply Hn; left; reflexivity|].
  destruct (dstep c s0 x); [|exact I]. apply IH. intros Hx; apply Hn; right; exact Hx.
Qed.

(** Two complete runs of the diamond, then a third one half way; all labels of the schedule come from several threads. *)
Definition two_runs : list dlabel :=
  let ok := fun _ : list gevent => st_default in
  let s0 := match dstep diamond_c (d_init diamond_c) LRun with Some s => s | None => d_init diamond_c end in
  let l1 := LRun :: greedy ok 200 s0 in
  match drun diamond_c (d_init diamond_c) l1 with
  | Some s1 => l1 ++ [LRun; M; M; M; M]
  | None => []
  end.
Example C06_C07_C08_nonvacuous : wf (c_g diamond_c) /\ acyclic (c_g diamond_c) /\ 0 < c_workers diamond_c /\
  (exists s, exec diamond_c two_runs s /\ d_main s <> MIdle /\ starts (trace s) = [0] /\ no_error (trace s)) /\
  (exists ls s, exec diamond_c (LRun :: ls) s /\ d_out s = Some st_default /\ starts (trace s) = [0; 1; 2; 3; 4] /\ In (LPick 0) ls).
Proof.
  split; [exact diamond_wf|]. split; [exact diamond_acyclic|]. split; [simpl; lia|]. split.
  - eexists. split; [split; [vm_compute; reflexivity|]|].
    + let t := eval vm_compute in two_runs in change two_runs with t.
      match goal with |- disciplined _ _ (LRun :: ?a) =>
        assert (E : exists l1 l2, a = l1 ++ LRun :: l2 /\ ~ In LRun l1 /\ ~ In LRun l2 /\ exists s, drun diamond_c (d_init diamond_c) (LRun :: l1) = Some s /\ d_out s = Some st_default) end.
      { eexists (firstn (length two_runs - 6) (tl two_runs)), [M; M; M; M]. split; [vm_compute; reflexivity|]. split.
        - vm_compute. intros Hin. repeat (destruct Hin as [Hin|Hin]; [discriminate Hin|]). exact Hin.
        - split; [simpl; intuition discriminate|]. eexists. split; vm_compute; reflexivity. }
      destruct E as [l1 [l2 [-> [N1 [N2 [s [Hs Ho]]]]]]].
      rewrite app_comm_cons. eapply disciplined_app; [|exact Hs|].
      * cbn [disciplined]. split; [intros _ st E; discriminate E|]. destruct (dstep diamond_c (d_init diamond_c) LRun); [|exact I]. apply disciplined_norun; exact N1.
      * cbn [disciplined]. split; [intros _ st E; rewrite Ho in E; inversion E; subst; intros X; vm_compute in X; discriminate X|].
        destruct (dstep diamond_c s LRun); [|exact I]. apply disciplined_norun; exact N2.
    + vm_compute. split; [discriminate|]. split; [reflexivity|]. intros e r Hin. repeat (destruct Hin as [Hin|Hin]; [try discriminate Hin; inversion Hin; subst; discriminate|]). contradiction.
  - exists (firstn (length two_runs - 6) (tl two_runs)). eexists. split; [split; [vm_compute; reflexivity|]|].
    + eapply disciplined_one_run; [vm_compute; reflexivity|]. vm_compute. intros Hin. repeat (destruct Hin as [Hin|Hin]; [discriminate Hin|]). exact Hin.
    + vm_compute. split; [reflexivity|]. split; [reflexivity|]. tauto.
Qed.
(** A run in which element 1 fails: 3 and 4 never start, the error is returned. *)
Example C09_nonvacuous : exists ls s, exec diamond_c (LRun :: ls) s /\ d_out s = Some boom /\ In (GFinish 1 boom) (trace s) /\ ~ In (GStart 3) (trace s).
Proof.
  exists (match dstep diamond_c (d_init diamond_c) LRun with Some s => greedy (fun tr => if existsb (fun ev => match ev with GFinish 0 _ => true | _ => false end) tr then boom else st_default) 200 s | None => [] end).
  eexists. split; [split; [vm_compute; reflexivity|]|].
  - eapply disciplined_one_run; [vm_compute; reflexivity|]. vm_compute. intros Hin. repeat (destruct Hin as [Hin|Hin]; [discriminate Hin|]). exact Hin.
  - vm_compute. split; [reflexivity|]. split; [tauto|intuition discriminate].
Qed.
