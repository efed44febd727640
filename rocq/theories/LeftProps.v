(** C115: when run() has returned, nothing of it is still going on. *)
From Verif Require Import GraphModel GraphSpec TopoProofs StaticModel StaticProofs StatusProofs EngineSeqProofs DynModel DynInv DynProofs DynTerm GraphProps DynProps FastModel FastProofs ParProofs FastProps WholeModel LevelProofs.
From Verif Require Import LeftModel LeftSpec LeftProofs.
From Coq Require Import Lia.
Local Open Scope nat_scope.
Local Open Scope list_scope.

(** C115 for runs in which no element reports an error: any number of runs one after the other, destroyed and deleted in any order, on the pipeline's own or on a shared thread pool, every schedule. Nothing is being executed when parameters are set up or reset, when run returns, and when elements are destroyed or deleted; nothing starts outside of a run. *)
Theorem C115_fine_partial : forall c shared ls s, wf (c_g c) -> acyclic (c_g c) -> lrun c shared (l_new c) ls = Some s -> all_fine (l_log s) ->
  calm (l_log s) /\ inside (l_log s).
Proof.
  intros c shared ls s Wf Ac H F. destruct (fine_run c shared Wf Ac ls (l_new c) s (gen_new c shared) (or_intror (fine_new c)) H) as [(e & r & He & Hr)|X].
  - apply F in He. lia.
  - split; apply X.
Qed.
Print Assumptions C115_fine_partial.

(** C115, destroy() with the pipeline's own pool: no element is being executed when an element is destroyed, whatever the elements reported and however runs were called. *)
Theorem C115_own_destroy_partial : forall c ls s a e b, lrun c false (l_new c) ls = Some s -> l_log s = a ++ VDestroy e :: b -> at_rest a.
Proof. intros c ls s a e b H. apply (own_destroy c ls (l_new c) s (gen_new c false)); [|exact H]. intros a0 e0 b0 E. destruct a0; discriminate. Qed.
Print Assumptions C115_own_destroy_partial.

Definition ended (tr : list gevent) : Prop := forall e, In (GStart e) tr -> exists r, In (GFinish e r) tr.
Lemma seq_ended res : forall p, ended (seq_trace res p).
Proof. induction p as [|a p IH]; intros e He; cbn in He; [contradiction|]. destruct He as [He|[He|He]]; [injection He as ->; exists (res e); right; now left|discriminate|]. destruct (IH e He) as [r Hr]. exists r. right. now right. Qed.
Lemma serial_ended g res : forall n cur st tr out, serial_loop n g res cur st = Some (tr, out) -> ended tr.
Proof.
  induction n as [|n IH]; intros cur st tr out H; cbn [serial_loop] in H; [discriminate|].
  assert (B : forall t, ended t -> ended (GStart cur :: GFinish cur (res cur) :: t)). { intros t Ht e [He|[He|He]]; [injection He as ->; exists (res e); right; now left|discriminate|]. destruct (Ht e He) as [r Hr]. exists r. right. now right. }
  destruct (succ g cur) as [|x l]; [injection H as <- <-; apply B; intros e []|]. destruct (isErr (st_plus st (res cur))); [injection H as <- <-; apply B; intros e []|].
  destruct (serial_loop n g res x (st_plus st (res cur))) as [[t o]|] eqn:E; [|discriminate]. injection H as <- <-. apply B. now apply (IH _ _ _ _ E).
Qed.
Lemma static_over g inl mat ls s r : wf g -> acyclic g -> static_setup g = Some (Some mat) -> srun (s_init inl mat) ls = Some s -> s_out s = Some r -> s_queue s = [] /\ s_running s = [] /\ ended (s_tr s).
Proof.
  intros Wf Ac Hs H O. destruct (static_setup_spec g Wf) as [L _]. destruct (L Ac) as (m & Em & Ly). rewrite Em in Hs. injection Hs as ->.
  destruct (srun_inv inl g mat Wf Ly ls _ _ s (sinv_init inl g mat) H) as (con & I). apply (static_quiet inl g mat Wf Ly s con I). rewrite O. discriminate.
Qed.
(** C115 for the other engines and for graphs that are a chain: when run returns or throws, with whatever result, every element that started has ended. *)
Theorem C115_others_partial : forall g eng tr r, wf g -> acyclic g -> engine_run g eng tr r -> (forall bind, eng = EDynamic bind -> analysis_dag_type g bind = AllSerial) -> ended tr.
Proof.
  intros g eng tr r Wf Ac H N. destruct H as [res order tr r _ H|inl mat ls s r Hs H O|bind res prev tr st A _ H|bind c ls s st A|c ls s st A].
  - destruct (topo_run_shape res order tr r H) as [(_ & -> & _)|(p & f & q & _ & _ & _ & -> & _)]; apply seq_ended.
  - destruct (static_over g inl mat ls s r Wf Ac Hs H O) as (_ & _ & E). exact E.
  - unfold serial_run in H. destruct (fronts g) as [|f l]; [injection H as <- _; intros e []|]. now apply (serial_ended _ _ _ _ _ _ _ H).
  - rewrite (N bind eq_refl) in A. discriminate.
  - rewrite (N (c_bind c) eq_refl) in A. discriminate.
Qed.
Print Assumptions C115_others_partial.
(** C115 for the static engine: once run has returned or thrown, no thread of the pool has anything left of it to do. *)
Theorem C115_static_over_partial : forall g inl mat ls s r, wf g -> acyclic g -> static_setup g = Some (Some mat) -> srun (s_init inl mat) ls = Some s -> s_out s = Some r -> forall l, sstep s l = None.
Proof.
  intros g inl mat ls s r Wf Ac Hs H O l. destruct (static_over g inl mat ls s r Wf Ac Hs H O) as (Q & R & _). destruct l as [x|e|e x]; cbn [sstep]; rewrite ?O, ?Q, ?R; reflexivity.
Qed.
Print Assumptions C115_static_over_partial.

(** C115, what a failed run of the dynamic engine leaves behind: the status that run returned stays as it is; every element that still starts had all its dependencies ended without an error before run returned, that is, no element starts because of what happens after run has returned. *)
Theorem C115_left_partial : forall c ls s st ls' s', wf (c_g c) -> acyclic (c_g c) -> exec c ls s -> d_out s = Some st -> (code st < 0)%Z -> ~ In LRun ls' -> drun c s ls' = Some s' ->
  d_out s' = Some st /\ exists d, trace s' = trace s ++ d /\
  forall e, In (GStart e) d -> ~ In (GStart e) (trace s) /\ forall x, In x (dep (c_g c) e) -> exists r, In (GFinish x r) (trace s) /\ (0 <= code r)%Z.
Proof.
  intros c ls s st ls' s' Wf Ac H O E N H'. pose proof (exec_inv c ls s Wf Ac H) as I. assert (M0 : d_main s = MIdle) by (destruct (d_main s) eqn:X; [reflexivity|..]; rewrite (v_out c s I) in O by (rewrite X; discriminate); discriminate).
  pose proof (v_phase c s I) as P. rewrite M0, O in P. destruct P as (R & Es & _). assert (Er : isErr (sh_stat (d_sh s)) = true) by (rewrite <- Es; apply isErr_code; exact E).
  destruct (left_run c ls' s s' N M0 Er H') as (_ & O' & d & T & D). split; [now rewrite O'|]. exists d. split; [exact T|]. intros e He. pose proof (D e He) as G.
  assert (K : In e (els (c_g c)) /\ 0 < sumf (f_tok e) (all_ops s)).
  { destruct G as [G|G]; (split; [apply (r_wfop c _ _ R _ G)|]); apply (sumf_in (f_tok e)) in G; cbn in G; rewrite Nat.eqb_refl in G; cbn in G; lia. }
  destruct K as [Ke Kt]. split.
  - intros X. apply in_starts, cnt_in in X. pose proof (r_once c _ _ R e) as Y. unfold rel in Y. unfold trace in X. lia.
  - intros x Hx. destruct (r_rel c _ _ R e x Ke Hx ltac:(unfold rel; lia)) as [F _]. apply finok_in. unfold trace. lia.
Qed.
Print Assumptions C115_left_partial.

Lemma drun_app c : forall l1 s s1 l2, drun c s l1 = Some s1 -> drun c s (l1 ++ l2) = drun c s1 l2.
Proof. induction l1 as [|l l1 IH]; intros s s1 l2 H; cbn [drun app] in *; [now injection H as ->|]. destruct (dstep c s l); [now apply IH|discriminate]. Qed.
(** C115, and it settles: the pool comes to rest after boundedly many steps; then every element that started has ended, and run may be called again (C06 to C09 speak about such calls). *)
Theorem C115_settles_partial : forall c ls s st, wf (c_g c) -> acyclic (c_g c) -> 0 < c_workers c -> exec c ls s -> d_out s = Some st -> exists n, forall ls' s', ~ In LRun ls' -> drun c s ls' = Some s' ->
  length ls' <= n /\ ((forall l s2, l <> LRun -> dstep c s' l <> Some s2) -> idle s' /\ may_call s' /\ ended (trace s')).
Proof.
  intros c ls s st Wf Ac Hw H O. pose proof (exec_inv c ls s Wf Ac H) as I. assert (M0 : d_main s = MIdle) by (destruct (d_main s) eqn:X; [reflexivity|..]; rewrite (v_out c s I) in O by (rewrite X; discriminate); discriminate).
  exists (measure c s). intros ls' s' N H'. destruct (no_spur c ls' s s' N M0 H') as [Z M']. pose proof (drun_measure c Wf Ac ls' s s' I N H') as B. split; [lia|]. intros S.
  assert (I' : Inv c s') by (apply (exec_inv c (ls ++ ls') s' Wf Ac); destruct H as [H D]; split; [rewrite (drun_app c ls _ s ls' H); exact H'|apply disciplined_app with s; [exact D|exact H|now apply disciplined_norun]]).
  destruct (settled c s' Hw M' (v_progs c s' I') S) as [Q1 Q2]. split; [now split|]. split; [intros ? _ _; now split|].
  assert (A : all_ops s' = []) by (unfold all_ops; rewrite M', Q1, Q2; reflexivity).
  assert (O' : d_out s' = Some st). { clear - H' N M0 O. revert s M0 O H'. induction ls' as [|l ls' IH]; intros s M0 O H'; cbn [drun] in H'; [now injection H' as <-|]. destruct (dstep c s l) as [s1|] eqn:E; [|discriminate]. destruct (idle_stays c s l s1 (fun X => N (or_introl X)) M0 E) as [M1 O1]. apply (IH (fun X => N (or_intror X)) s1 M1); [now rewrite O1|exact H']. }
  pose proof (v_phase c s' I') as P. rewrite M', O', A in P. destruct P as (R & _). intros e He. apply in_starts, cnt_in in He. pose proof (r_body c _ _ R e) as Y. cbn [sumf] in Y. unfold trace in *. rewrite Y in He. cbn [Nat.add] in He. apply cnt_in, in_map_iff in He as ([y v] & Ey & Hy). cbn [fst] in Ey. subst y. exists v. now apply in_finishes.
Qed.
Print Assumptions C115_settles_partial.

Lemma pworkers c : forall ls s s', length (p_act s) <= p_workers c -> prun c s ls = Some s' -> length (p_act s') <= p_workers c.
Proof.
  induction ls as [|l ls IH]; intros s s' B H; cbn [prun] in H; [now injection H as <-|]. destruct (pstep c s l) as [s1|] eqn:E; [|discriminate]. apply (IH s1 s'); [|exact H]. clear IH H. destruct l as [|r|i r|i|]; cbn [pstep] in E.
  - destruct (p_main s); try discriminate. now injection E as <-.
  - destruct (p_main s) as [| | |[|x l]|[|n]| | | | | |]; try discriminate E; injection E as <-; exact B.
  - destruct (nth_error (p_act s) i) as [o|] eqn:N; [|discriminate]. destruct (pop_enabled (p_main s) o); [|discriminate]. destruct (pop_sem c (p_num s) (p_stat s) (p_tr s) o r) as [[[[a b] t] nx] nt]. injection E as <-. cbn [p_act].
    pose proof (Permutation_length (nth_error_remove i _ o N)) as L. cbn [length] in L. destruct nx as [o'|]; [pose proof (Permutation_length (replace_nth_perm i _ o o' N)) as L'; cbn [length] in L'; lia|lia].
  - destruct (Nat.ltb_spec (length (p_act s)) (p_workers c)) as [L|L]; [|discriminate]. destruct (nth_error (p_pool s) i); [|discriminate]. injection E as <-. cbn [p_act]. rewrite app_length. cbn. lia.
  - destruct (p_main s); try discriminate. now injection E as <-.
Qed.
Definition go (o : pop) : nat := match o with PStart _ => 1 | _ => 0 end.
Lemma go_length a : sumf go a <= length a.
Proof. induction a as [|[] a IH]; cbn [sumf go length]; lia. Qed.
Lemma pleft_step c s l s' : l <> LRun -> p_main s = QIdle -> isErr (p_stat s) = true -> pstep c s l = Some s' ->
  p_main s' = QIdle /\ isErr (p_stat s') = true /\ p_stat s' = p_stat s /\ p_out s' = p_out s /\ exists d, p_tr s' = p_tr s ++ d /\ length (starts d) + sumf go (p_act s') <= sumf go (p_act s).
Proof.
  intros N M X H. destruct l as [|r|i r|i|]; [contradiction| | | |]; cbn [pstep] in H; rewrite ?M in H; try discriminate H.
  - destruct (nth_error (p_act s) i) as [o|] eqn:A; [|discriminate]. assert (En : pop_enabled QIdle o = true) by (destruct o; reflexivity). rewrite En in H.
    pose proof (sumf_perm go _ _ (nth_error_remove i _ o A)) as S1. cbn [sumf] in S1.
    destruct (pop_sem c (p_num s) (p_stat s) (p_tr s) o r) as [[[[a b] t] nx] nt] eqn:E. injection H as <-. cbn [p_main p_stat p_out p_tr p_act p_wake].
    assert (Q : sumf go (match nx with Some o' => replace_nth i o' (p_act s) | None => remove_nth i (p_act s) end) = (match nx with Some o' => go o' | None => 0 end) + sumf go (remove_nth i (p_act s))).
    { destruct nx as [o'|]; [|reflexivity]. now rewrite (sumf_perm go _ _ (replace_nth_perm i _ o o' A)). }
    rewrite Q. clear Q. split; [reflexivity|].
    destruct o as [e|e|e|e r0|e|n|]; cbn [pop_sem] in E; rewrite ?X in E; injection E as <- <- <- <- <-; (split; [|split; [|split; [reflexivity|]]]);
    try exact X; try reflexivity; try (apply st_plus_keep_err; exact X); try (rewrite st_plus_err by exact X; first [reflexivity|exact X]);
    first [exists []; rewrite app_nil_r; split; [reflexivity|] | eexists; split; [reflexivity|]]; repeat match goal with |- context [if ?b then _ else _] => destruct b end; cbn [starts flat_map app length go] in *; lia.
  - destruct (Nat.ltb (length (p_act s)) (p_workers c)); [|discriminate]. destruct (nth_error (p_pool s) i); [|discriminate]. injection H as <-. cbn [p_main p_stat p_out p_tr p_act]. repeat (split; [assumption || reflexivity|]). exists []. rewrite app_nil_r, sumf_app. split; [reflexivity|]. cbn. lia.
Qed.
Lemma pleft_run c : forall ls s s', ~ In LRun ls -> p_main s = QIdle -> isErr (p_stat s) = true -> prun c s ls = Some s' -> p_out s' = p_out s /\ exists d, p_tr s' = p_tr s ++ d /\ length (starts d) + sumf go (p_act s') <= sumf go (p_act s).
Proof.
  induction ls as [|l ls IH]; intros s s' N M X H; cbn [prun] in H; [injection H as <-; split; [reflexivity|]; exists []; rewrite app_nil_r; split; [reflexivity|cbn; lia]|]. destruct (pstep c s l) as [s1|] eqn:E; [|discriminate].
  destruct (pleft_step c s l s1 (fun Q => N (or_introl Q)) M X E) as (M1 & X1 & _ & O1 & d & T & L). destruct (IH s1 s' (fun Q => N (or_intror Q)) M1 X1 H) as (O' & d' & T' & L'). split; [now rewrite O'|]. exists (d ++ d'). rewrite T', T, app_assoc, starts_app, app_length. split; [reflexivity|lia].
Qed.
(** C115 for independent elements (the path of C10): after a failed run at most as many elements start as the pool has threads. *)
Theorem C115_parallel_left_partial : forall g c ls s st ls' s', par_cfg g c -> pexec c ls s -> p_out s = Some st -> (code st < 0)%Z -> ~ In LRun ls' -> prun c s ls' = Some s' ->
  p_out s' = Some st /\ exists d, p_tr s' = p_tr s ++ d /\ length (starts d) <= p_workers c.
Proof.
  intros g c ls s st ls' s' Hc H O E N H'. pose proof (pexec_inv g c ls s Hc H) as I. assert (M0 : p_main s = QIdle /\ p_stat s = st).
  { assert (X : p_main s = QIdle) by (destruct (p_main s) eqn:X; [reflexivity|..]; rewrite (i_out c s I) in O by (rewrite X; discriminate); discriminate). pose proof (i_phase c s I) as P. unfold pphase_ok in P. rewrite X, O in P. destruct P as (_ & P & _). now split. }
  destruct M0 as [M0 Es]. destruct (pleft_run c ls' s s' N M0 ltac:(rewrite Es; now apply isErr_code) H') as (O' & d & T & L). split; [now rewrite O'|]. exists d. split; [exact T|].
  pose proof (pworkers c ls p_init s (Nat.le_0_l _) (proj1 H)). pose proof (go_length (p_act s)). lia.
Qed.
Print Assumptions C115_parallel_left_partial.

(** * What is false *)
(** Elements 0 and 1 have no dependencies, 2 depends on 1; two threads. 1 fails in the thread that called run while 0 is being executed by a thread of the pool: run does not wait for 0. *)
Definition overtaken : list llabel := CRun :: map CEng [M; M; M; M; LPick 0; W; M; M; LMain boom; M; M; M; M; M; M; M; M].
Definition strag_ac : acyclic (c_g strag_c) := acyclic_by_check strag_g strag_wf eq_refl.
(** C115 is false of the code when an element fails: the parameters are reset, and run returns, while an element is still being executed. *)
Theorem C115_reset_refuted : exists c ls s a b, wf (c_g c) /\ acyclic (c_g c) /\ forall shared, lrun c shared (l_new c) ls = Some s /\ l_log s = a ++ VReset :: b /\ busy a 0 /\ In (VRet boom) b /\ busy (l_log s) 0 /\ b = [VRet boom].
Proof.
  exists strag_c, (overtaken ++ [CNext; CNext]). eexists. exists [VSetup; VEv (GStart 0); VEv (GStart 1); VEv (GFinish 1 boom)], [VRet boom]. split; [exact strag_wf|]. split; [exact strag_ac|]. intros shared. split; [destruct shared; vm_compute; reflexivity|]. vm_compute. auto 10.
Qed.
(** An element starts after run has returned. *)
Theorem C115_start_after_refuted : exists c ls s, wf (c_g c) /\ acyclic (c_g c) /\ forall shared, lrun c shared (l_new c) ls = Some s /\
  l_log s = [VSetup; VEv (GStart 1); VEv (GFinish 1 boom); VReset; VRet boom; VEv (GStart 0)].
Proof.
  exists strag_c, ((CRun :: map CEng [M; M; M; M; M; M; LMain boom; M; M; M; M; M; M; M; M]) ++ [CNext; CNext; CEng (LPick 0); CEng W]). eexists. split; [exact strag_wf|]. split; [exact strag_ac|]. intros shared. destruct shared; vm_compute; auto.
Qed.
(** With a shared thread pool an element is destroyed while it is being executed. *)
Theorem C115_destroy_refuted : exists c ls s a b, wf (c_g c) /\ acyclic (c_g c) /\ lrun c true (l_new c) ls = Some s /\ l_log s = a ++ VDestroy 0 :: b /\ busy a 0.
Proof.
  exists strag_c, (overtaken ++ [CNext; CNext; CDestroy; CNext; CNext]). eexists. exists [VSetup; VEv (GStart 0); VEv (GStart 1); VEv (GFinish 1 boom); VReset; VRet boom], []. split; [exact strag_wf|]. split; [exact strag_ac|]. split; [vm_compute; reflexivity|]. vm_compute. auto.
Qed.
(** A pipeline that is deleted without destroy() deletes an element that is being executed, also with a thread pool of its own. *)
Theorem C115_delete_refuted : exists c ls s a b, wf (c_g c) /\ acyclic (c_g c) /\ lrun c false (l_new c) ls = Some s /\ l_log s = a ++ VDelete 0 :: b /\ busy a 0.
Proof.
  exists strag_c, (overtaken ++ [CNext; CNext; CDelete; CNext]). eexists. exists [VSetup; VEv (GStart 0); VEv (GStart 1); VEv (GFinish 1 boom); VReset; VRet boom], []. split; [exact strag_wf|]. split; [exact strag_ac|]. split; [vm_compute; reflexivity|]. vm_compute. auto.
Qed.
(** The next run: an element is executed twice at the same time. *)
Theorem C115_next_refuted : exists c ls s, wf (c_g c) /\ acyclic (c_g c) /\ lrun c false (l_new c) ls = Some s /\ n_starts 0 (l_log s) = 2 /\ n_ends 0 (l_log s) = 0.
Proof.
  exists strag_c, (overtaken ++ [CNext; CNext; CRun] ++ map CEng [M; M; M; M; LPick 0; LWork 1 st_default]). eexists. split; [exact strag_wf|]. split; [exact strag_ac|]. split; [vm_compute; reflexivity|]. vm_compute. auto.
Qed.
Print Assumptions C115_reset_refuted.
Print Assumptions C115_start_after_refuted.
Print Assumptions C115_destroy_refuted.
Print Assumptions C115_delete_refuted.
Print Assumptions C115_next_refuted.

(** * Non-vacuity *)
Definition ok_run : list llabel := CRun :: map CEng ([M; M; M; M; LPick 0; W] ++ repeat M 15 ++ [W; W; W; W; M; M; M]) ++ [CNext; CNext].
(** Two runs without errors, then destroy and deletion. *)
Example C115_fine_nonvacuous : exists s, wf (c_g strag_c) /\ acyclic (c_g strag_c) /\ lrun strag_c false (l_new strag_c) (ok_run ++ ok_run ++ [CDestroy; CNext; CNext; CNext; CNext; CNext; CDelete; CNext]) = Some s /\ all_fine (l_log s) /\
  n_starts 0 (l_log s) = 2 /\ n_starts 1 (l_log s) = 2 /\ n_starts 2 (l_log s) = 2 /\ In (VRet st_default) (l_log s) /\ In (VDelete 0) (l_log s).
Proof.
  eexists. split; [exact strag_wf|]. split; [exact strag_ac|]. split; [vm_compute; reflexivity|]. split; [|vm_compute; auto 30].
  intros e r H. cbn in H. repeat (destruct H as [H|H]; [first [discriminate H|injection H as <- <-; vm_compute; discriminate]|]). contradiction.
Qed.
(** The failed run above, own pool: destroy waits until 0 has ended. *)
Example C115_own_destroy_nonvacuous :
  lrun strag_c false (l_new strag_c) (overtaken ++ [CNext; CNext; CDestroy; CNext]) = None /\
  exists s a, lrun strag_c false (l_new strag_c) (overtaken ++ [CNext; CNext; CDestroy; CEng W; CEng W; CNext; CNext]) = Some s /\ l_log s = a ++ [VDestroy 0] /\ In (VRet boom) a /\ In (VEv (GStart 0)) a.
Proof.
  split; [vm_compute; reflexivity|]. eexists. exists [VSetup; VEv (GStart 0); VEv (GStart 1); VEv (GFinish 1 boom); VReset; VRet boom; VEv (GFinish 0 st_default)]. split; [vm_compute; reflexivity|]. vm_compute. auto 20.
Qed.
(** A failing static run: 0 and 1 are both under way when 1 fails; run returns only after 0 has ended. *)
Example C115_others_nonvacuous : exists mat s, static_setup strag_g = Some (Some mat) /\
  srun (s_init (fun _ => false) mat) [SMain st_default; SMain st_default; SStart 0; SStart 1; SFinish 1 boom; SFinish 0 st_default; SMain st_default; SMain st_default; SMain st_default] = Some s /\
  s_out s = Some (EReturn boom) /\ s_tr s = [GStart 0; GStart 1; GFinish 1 boom; GFinish 0 st_default] /\ engine_run strag_g EStatic (s_tr s) (EReturn boom).
Proof.
  eexists. eexists. split; [vm_compute; reflexivity|]. split; [vm_compute; reflexivity|]. split; [vm_compute; reflexivity|]. split; [vm_compute; reflexivity|].
  apply (er_static strag_g (fun _ => false) [[0; 1]; [2]] [SMain st_default; SMain st_default; SStart 0; SStart 1; SFinish 1 boom; SFinish 0 st_default; SMain st_default; SMain st_default; SMain st_default]); vm_compute; reflexivity.
Qed.
(** A failed run after which 0 still starts and ends, and then the pool is at rest. *)
Example C115_left_nonvacuous : exists s s', exec strag_c [LRun; M; M; M; M; M; M; LMain boom; M; M; M; M; M; M; M; M] s /\ d_out s = Some boom /\ drun strag_c s [LPick 0; W; W; W] = Some s' /\ starts (trace s') = [1; 0] /\ starts (trace s) = [1] /\ idle s'.
Proof.
  eexists. eexists. split; [|split; [|split; [|split; [|split]]]].
  - split; [vm_compute; reflexivity|]. eapply disciplined_one_run; [vm_compute; reflexivity|]. intros Hin. repeat (destruct Hin as [Hin|Hin]; [discriminate Hin|]). exact Hin.
  - vm_compute. reflexivity.
  - vm_compute. reflexivity.
  - vm_compute. reflexivity.
  - vm_compute. reflexivity.
  - split; vm_compute; reflexivity.
Qed.
Example C115_parallel_left_nonvacuous : exists s s', par_cfg indep_g indep_c /\ pexec indep_c ([LRun; M; M; M; M; M; M; M; LPick 0; W; W; LPick 0; LWork 1 st_default; LWork 0 boom; W; W; W; W] ++ repeat M 6) s /\ p_out s = Some boom /\ prun indep_c s [W] = Some s' /\ starts (p_tr s) = [0] /\ starts (p_tr s') = [0; 1].
Proof.
  destruct C10_parallel_nonvacuous as (_ & _ & _ & Hc & _). eexists. eexists. split; [exact Hc|]. split; [|split; [|split; [|split]]].
  - split; [vm_compute; reflexivity|]. split; [intros _; vm_compute; repeat split; try reflexivity; intros; discriminate|]. cbn [pstep]. apply p_disciplined_one. intros Hin. repeat (destruct Hin as [Hin|Hin]; [discriminate Hin|]). exact Hin.
  - vm_compute. reflexivity.
  - vm_compute. reflexivity.
  - vm_compute. reflexivity.
  - vm_compute. reflexivity.
Qed.
