(** C85 (every execution of a mutable group follows its reshape), C86 (a reshape with a cycle). *)
From Verif Require Import MutSpec MutProofs DepProofs TopoProofs StaticProofs StatusProofs GraphProps DynProps FastProps.
From Coq Require Import Lia Permutation.
Local Open Scope nat_scope.

Lemma shown_named ks ops e : Forall (rop_on ks) ops -> ~ In e ks -> shown ops e = false.
Proof.
  intros Ho He. unfold shown. assert (G : forall l v, Forall (rop_on ks) l -> v = false -> fold_left (fun v o => match o with
    | RLink a (Some b) => Nat.eqb a e || Nat.eqb b e || v
    | RShow a x => if Nat.eqb a e then x else v
    | _ => v end) l v = false).
  { induction l as [|o l IH]; intros v Hl Hv; [exact Hv|]. inversion Hl; subst. cbn [fold_left]. apply IH; [assumption|].
    destruct o as [a [b|]|a x|a n]; cbn [rop_on] in H1.
    - destruct H1 as [Ha [y [E Hb]]]. injection E as ->. destruct (Nat.eqb_spec a e) as [->|]; [contradiction|]. destruct (Nat.eqb_spec y e) as [->|]; [contradiction|]. reflexivity.
    - reflexivity.
    - destruct (Nat.eqb_spec a e) as [->|]; [contradiction|reflexivity].
    - reflexivity. }
  apply G; [exact Ho|reflexivity].
Qed.

(** * C85 *)

(** Whatever the state before (edges, visibility and loops left by earlier executions, even half done ones), after setup
    and reshape the children have exactly the dependencies, visibility and loops that this reshape asked for, and no other
    element changed. A reshape that links children cannot throw. *)
Theorem C85_reshape_exact : forall s m ks ops, children s m ks -> Forall (rop_on ks) ops ->
  exists s1, reshape (mut_setup s ks) ops = Some s1 /\
    (forall e, In e ks ->
       (forall d, In d (e_dep (m_g s1 e)) <-> linked ops d e) /\
       (forall d, In d (e_succ (m_g s1 e)) <-> linked ops e d) /\
       m_vis s1 e = shown ops e /\ m_loop s1 e = times (m_tmo s e) ops e) /\
    (forall e, ~ In e ks -> m_g s1 e = m_g s e /\ m_vis s1 e = m_vis s e /\ m_loop s1 e = m_loop s e).
Proof.
  intros s m ks ops Hk Ho. destruct (reshape_RI s m ks ops Hk Ho) as [s1 [E R]]. exists s1. split; [exact E|]. split.
  - intros e He. split; [apply (ri_dep _ _ _ _ R e He)|]. split; [apply (ri_succ _ _ _ _ R e He)|]. apply (ri_vis _ _ _ _ R e He).
  - apply (ri_out _ _ _ _ R).
Qed.
Print Assumptions C85_reshape_exact.

Lemma bodies_err : forall n res i st, (0 <= code st)%Z -> (code (snd (bodies_loop n res i st)) < 0)%Z ->
  exists j, j < n /\ snd (bodies_loop n res i st) = mkStatus (code (res (i + j))) (info (res (i + j))).
Proof.
  induction n as [|n IH]; intros res i st Hs Hc; cbn [bodies_loop] in *; [cbn in Hc; lia|].
  destruct (isOK st); [|cbn in Hc; lia].
  destruct (bodies_loop n res (S i) (st_plus st (res i))) as [k st'] eqn:E. cbn [snd] in *.
  destruct (isErr (res i)) eqn:Er.
  - exists 0. split; [lia|]. rewrite Nat.add_0_r.
    assert (Es : st_plus st (res i) = mkStatus (code (res i)) (info (res i))).
    { unfold st_plus. destruct (isErr st) eqn:X; [apply isErr_code in X; lia|]. rewrite Er. reflexivity. }
    rewrite Es in E. destruct n as [|n]; cbn [bodies_loop] in E; [congruence|].
    destruct (isOK _) eqn:X in E; [|congruence]. unfold isOK in X. cbn [code] in X. apply Z.eqb_eq in X. apply isErr_code in Er. unfold STATUS_OK in X. lia.
  - assert (Es : st_plus st (res i) = st) by (unfold st_plus; rewrite Er, andb_false_r; reflexivity). rewrite Es in E.
    specialize (IH res (S i) st Hs). rewrite E in IH. cbn [snd] in IH. destruct (IH Hc) as [j [Hj Ej]]. exists (S j). split; [lia|].
    replace (i + S j) with (S i + j) by lia. exact Ej.
Qed.

(** One execution of the group, with a reshape that asks for no cycle: the engine accepts it, and in every complete run of
    the engine (any path it chooses, any schedule, any results of the bodies)
    - an element starts only after everything linked before it has finished without error, and starts at most once;
    - no body runs more often than this reshape asked for, in particular none of an element it left hidden;
    - when OK is returned every body ran exactly as often as asked for;
    - an error that is returned is the status of a body of an element that was shown. *)
Theorem C85_execution : forall bind s m ks ops r, children s m ks -> Forall (rop_on ks) ops -> (0 <= code r)%Z -> asks_acyclic ops ->
  m_status s = st_default \/ (code (m_status s) < 0)%Z ->
  exists s2, mut_run bind s ks ops r = MEngine s2 st_default /\
    forall res tr st, mut_exec bind s2 ks true res tr st ->
      (forall t1 e t2 d, tr = t1 ++ GStart e :: t2 -> linked ops d e -> exists v, In (GFinish d v) t1 /\ (0 <= code v)%Z) /\
      starts_once tr /\
      (forall e, body_count s2 res tr e <= wanted s ops e) /\
      ((0 <= code (mut_status st_default st))%Z -> forall e, body_count s2 res tr e = wanted s ops e) /\
      ((code (mut_status st_default st) < 0)%Z -> exists e j, In e ks /\ shown ops e = true /\ j < times (m_tmo s e) ops e /\
         code (mut_status st_default st) = code (res e j) /\ info (mut_status st_default st) = info (res e j)).
Proof.
  intros bind s m ks ops r Hk Ho Hr Ha Hp. destruct (reshape_RI s m ks ops Hk Ho) as [s1 [E R]].
  pose proof (RI_wf s s1 m ks ops Hk Ho R) as Hwf. pose proof (proj2 (RI_acyclic s s1 ks ops Ho R) Ha) as Hac.
  destruct (proj1 (C03_init_iff_acyclic _ Hwf) Hac) as [_ [_ Hdag]].
  set (g := graph_of (m_g s1) ks) in *. set (s2 := with_eng s1 (mkEng ks (fronts g) (analysis_dag_type g bind))).
  exists s2. split.
  { unfold mut_run. rewrite E. unfold check_status. destruct (isErr r) eqn:X; [apply isErr_code in X; lia|].
    unfold eng_setup. fold g. rewrite Hdag. reflexivity. }
  intros res tr st Hx. destruct (ri_rest _ _ _ _ R) as [ET [_ ES]].
  assert (Hp2 : m_status s2 = st_default \/ (code (m_status s2) < 0)%Z) by (cbn [s2 with_eng m_status]; rewrite ES; exact Hp).
  destruct (mut_exec_trace bind s2 ks res tr st Hwf Hac eq_refl Hp2 Hx) as [H1 [H2 [H3 [Hfs [H4 [H5 H6]]]]]].
  change (graph_of (m_g s2) ks) with g in *.
  assert (Hchild : forall e, In e ks -> child_run s2 res e = if shown ops e then bodies_loop (times (m_tmo s e) ops e) (res e) 0 st_default else (0, st_default)).
  { intros e He. unfold child_run. cbn [s2 with_eng m_vis m_loop]. destruct (ri_vis _ _ _ _ R e He) as [-> ->]. reflexivity. }
  assert (Hocc : forall e, count_occ Nat.eq_dec (starts tr) e <= 1) by (intros e; apply NoDup_count_occ; exact H2).
  assert (Hnot : forall e, ~ In e ks -> body_count s2 res tr e = 0).
  { intros e He. rewrite body_count_starts. replace (count_occ Nat.eq_dec (starts tr) e) with 0; [reflexivity|].
    symmetry. apply count_occ_not_In. intros X. apply He, H3, X. }
  assert (Hw : forall e, ~ In e ks -> wanted s ops e = 0) by (intros e He; unfold wanted; rewrite (shown_named ks ops e Ho He); reflexivity).
  split.
  { intros t1 e t2 d Et Hl. apply (H1 t1 e t2 Et d). destruct (linked_on ks ops d e Ho Hl) as [_ He]. apply (ri_dep _ _ _ _ R e He). exact Hl. }
  split; [exact H2|]. split.
  { intros e. destruct (in_dec Nat.eq_dec e ks) as [He|He]; [|rewrite Hnot, Hw by exact He; apply Nat.le_refl].
    rewrite body_count_starts, (Hchild e He). unfold wanted. specialize (Hocc e). destruct (shown ops e); cbn [fst]; [|lia].
    pose proof (bodies_bound (times (m_tmo s e) ops e) (res e) 0 st_default). nia. }
  assert (Est : mut_status st_default st = if isErr st then st else st_default).
  { unfold mut_status, st_plus. cbn [isErr st_default code]. change (STATUS_OK <? STATUS_OK)%Z with false. cbn [negb andb]. destruct (isErr st); [destruct st|]; reflexivity. }
  rewrite Est. destruct (isErr st) eqn:Xst.
  - apply isErr_code in Xst. split; [intros X; exfalso; lia|]. intros _. destruct (H6 Xst) as [e Hf]. pose proof (H4 _ _ Hf) as Ev.
    assert (He : In e ks).
    { apply H3. apply (Hfs e st Hf). }
    rewrite (Hchild e He) in Ev. destruct (shown ops e) eqn:Sh; cbn [snd] in Ev; [|rewrite Ev in Xst; vm_compute in Xst; discriminate Xst].
    destruct (bodies_err (times (m_tmo s e) ops e) (res e) 0 st_default) as [j [Hj Ej]]; [vm_compute; discriminate|rewrite <- Ev; exact Xst|].
    exists e, j. do 3 (split; [assumption|]). rewrite Ev, Ej. cbn. split; reflexivity.
  - split; [|intros X; vm_compute in X; discriminate X]. intros _ e.
    assert (Hst : (0 <= code st)%Z) by (destruct (Z.ltb_spec (code st) 0) as [Hlt|]; [apply isErr_code in Hlt; congruence|assumption]).
    destruct (H5 Hst) as [_ [[Hall Hfin] Hno]]. destruct (in_dec Nat.eq_dec e ks) as [He|He]; [|rewrite Hnot, Hw by exact He; reflexivity].
    rewrite body_count_starts. replace (count_occ Nat.eq_dec (starts tr) e) with 1.
    2: { symmetry. apply NoDup_count_occ'; [exact H2|]. eapply Permutation_in; [symmetry; exact Hall|exact He]. }
    rewrite Nat.mul_1_l. unfold wanted. assert (Hfe : exists v, In (GFinish e v) tr).
    { assert (X : In e (map fst (finishes tr))) by (eapply Permutation_in; [symmetry; exact Hfin|exact He]).
      apply in_map_iff in X. destruct X as [[e' v] [E1 X]]. cbn in E1. subst e'. exists v. unfold finishes in X. apply in_flat_map in X.
      destruct X as [ev [Hev X]]. destruct ev as [y|y w]; [destruct X|]. destruct X as [X|[]]. injection X as -> ->. exact Hev. }
    destruct Hfe as [v Hv]. pose proof (Hno e v Hv) as Hc. pose proof (H4 _ _ Hv) as Ev. rewrite (Hchild e He) in *. destruct (shown ops e); [|reflexivity].
    apply bodies_ok; [reflexivity|]. rewrite <- Ev. exact Hc.
Qed.
Print Assumptions C85_execution.

(** A reshape that reports an error, or throws, executes nothing. *)
Theorem C85_reshape_fails : forall bind s ks ops r s2 r2, mut_run bind s ks ops r = MEngine s2 r2 -> (0 <= code r)%Z /\ reshape (mut_setup s ks) ops <> None.
Proof.
  intros bind s ks ops r s2 r2 H. unfold mut_run in H. destruct (reshape (mut_setup s ks) ops); [|discriminate]. split; [|discriminate].
  unfold check_status in H. destruct (isErr r) eqn:E; [destruct (isCrash r); discriminate|]. destruct (Z.ltb_spec (code r) 0) as [X|X]; [|exact X]. apply isErr_code in X. congruence.
Qed.
Print Assumptions C85_reshape_fails.

(** Two executions of one group that has 4 children: the second reshape is different from the first one; the state in
    between still has all of the first one's edges, and child 2 is still visible. *)
Definition mut0 : mst :=
  mkM (fun _ => mkElem (Some 9) [] [] 0%Z true true) (fun _ => true) (fun _ => 1) (fun e => Nat.eqb e 3) eng_init st_default.
Definition mut_next (r : mres) : mst := match r with MEngine s _ => s | _ => mut0 end.
Definition dfl : nat -> Z := fun _ => (-1)%Z.
Definition ops1 := [RLink 0 (Some 1); RLink 1 (Some 2); RLink 2 (Some 3)].
Definition ops2 := [RLink 3 (Some 1); RTimes 1 3; RTimes 3 7; RShow 0 true; RLink 1 (Some 0)].
Definition mut1 : mst := mut_next (mut_run dfl mut0 [0; 1; 2; 3] ops1 st_default).
Lemma mut_children s ks : NoDup ks -> (forall e, In e ks -> e_belong (m_g s e) = Some 9 /\ e_mut (m_g s e) = true) -> children s 9 ks.
Proof. split; assumption. Qed.
Lemma nodup4 : NoDup [0; 1; 2; 3].
Proof. repeat constructor; simpl; intuition discriminate. Qed.
Lemma mut_acyclic_chain : asks_acyclic ops2.
Proof.
  assert (G : forall a b, clos_trans nat (linked ops2) a b -> (a = 3 /\ b = 1) \/ (a = 1 /\ b = 0) \/ (a = 3 /\ b = 0)).
  { intros a b H. induction H as [a b [Hne H]|a b c _ IH1 _ IH2].
    - cbn in H. repeat (destruct H as [H|H]; [try discriminate H; inversion H; subst; auto|]). destruct H.
    - intuition; subst; try discriminate; auto. }
  intros e H. apply G in H. intuition; subst; discriminate.
Qed.
Example C85_nonvacuous :
  children mut1 9 [0; 1; 2; 3] /\ Forall (rop_on [0; 1; 2; 3]) ops2 /\ asks_acyclic ops2 /\ m_status mut1 = st_default /\
  e_dep (m_g mut1 2) = [1] /\ m_vis mut1 2 = true /\
  map (wanted mut1 ops2) [0; 1; 2; 3; 4] = [1; 3; 0; 1; 0] /\ en_type (m_eng mut1) = AllSerial /\
  en_type (m_eng (mut_next (mut_run dfl mut1 [0; 1; 2; 3] ops2 st_default))) = Common /\
  (let s := mut_next (mut_run dfl mut1 [0; 1; 2; 3] (ops2 ++ [RLink 0 (Some 2); RShow 2 false]) st_default) in
   let res e i := if Nat.eqb e 0 then boom else st_default in
   exists tr, mut_exec dfl s [0; 1; 2; 3] true res tr boom /\ map (body_count s res tr) [0; 1; 2; 3] = [1; 3; 0; 1]).
Proof.
  split. { apply mut_children; [exact nodup4|]. intros e He. cbn in He. intuition; subst; vm_compute; reflexivity. }
  split. { apply Forall_forall. intros o Ho. cbn in Ho. repeat (destruct Ho as [<-|Ho]; [cbn; eauto 12|]). destruct Ho. }
  split; [exact mut_acyclic_chain|].
  do 6 (split; [vm_compute; reflexivity|]). cbn zeta. eexists. split; [eapply (MXSerial _ _ _ _ _ 4); vm_compute; reflexivity|]. vm_compute. reflexivity.
Qed.

(** * C86 *)

(** A reshape that asks for a cycle: the engine refuses it, and whenever the run ends that error is what the group returns.
    In the first execution after init() nothing is executed at all.
    Missing: in later executions elements do run, and the run may not end, see the refutations. *)
Theorem C86_cycle_reported_partial : forall bind s m ks ops r, children s m ks -> Forall (rop_on ks) ops -> (0 <= code r)%Z -> ~ asks_acyclic ops ->
  exists s2, mut_run bind s ks ops r = MEngine s2 err_dag /\
    (forall st, mut_status err_dag st = err_dag) /\
    (m_eng s = eng_init -> forall res,
       (exists tr st, mut_exec bind s2 ks false res tr st) /\
       forall tr st, mut_exec bind s2 ks false res tr st -> tr = []).
Proof.
  intros bind s m ks ops r Hk Ho Hr Ha. destruct (reshape_RI s m ks ops Hk Ho) as [s1 [E R]].
  pose proof (RI_wf s s1 m ks ops Hk Ho R) as Hwf.
  assert (Hac : ~ acyclic (graph_of (m_g s1) ks)) by (intros X; apply Ha, (RI_acyclic s s1 ks ops Ho R), X).
  destruct (proj2 (C03_init_iff_acyclic _ Hwf) Hac) as [_ [_ Hdag]]. destruct (ri_rest _ _ _ _ R) as [_ [EE _]].
  exists s1. split.
  { unfold mut_run. rewrite E. unfold check_status. destruct (isErr r) eqn:X; [apply isErr_code in X; lia|].
    unfold eng_setup. rewrite Hdag. reflexivity. }
  split; [intros st; reflexivity|]. intros Ei res. rewrite Ei in EE. split.
  - exists [], (prepare_status (m_status s1)). apply (MXSerial _ _ _ _ _ 0); [rewrite EE; reflexivity|]. unfold serial_from. rewrite EE. reflexivity.
  - intros tr st Hx. destruct Hx as [fuel tr st T Hs|c ls p st T _ _ _ _ _ _|c ls d st T X _ _ _ _ _ _]; [|rewrite EE in T; discriminate T|discriminate X].
    unfold serial_from in Hs. rewrite EE in Hs. cbn in Hs. congruence.
Qed.
Print Assumptions C86_cycle_reported_partial.

Definition ops_ab := [RLink 0 (Some 1)].
Definition ops_cycle := [RLink 0 (Some 1); RLink 1 (Some 0)].
Lemma cycle_not_acyclic : ~ asks_acyclic ops_cycle.
Proof. intros H. apply (H 0). apply t_trans with 1; apply t_step; (split; [discriminate|cbn; auto]). Qed.
Definition mut_ab : mst := mut_next (mut_run dfl mut0 [0; 1] ops_ab st_default).
Definition mut_cyc : mst := mut_next (mut_run dfl mut_ab [0; 1] ops_cycle st_default).

(** After one execution as a chain, a reshape with a cycle makes the next execution run the elements of the cycle for ever
    instead of reporting the error: no number of executed elements is enough. *)
Theorem C86_returns_refuted :
  mut_run dfl mut0 [0; 1] ops_ab st_default = MEngine mut_ab st_default /\ ~ asks_acyclic ops_cycle /\
  mut_run dfl mut_ab [0; 1] ops_cycle st_default = MEngine mut_cyc err_dag /\
  en_type (m_eng mut_cyc) = AllSerial /\
  (forall n, serial_from n mut_cyc [0; 1] (fun _ => st_default) = None) /\
  forall ok tr st, ~ mut_exec dfl mut_cyc [0; 1] ok (fun _ _ => st_default) tr st.
Proof.
  split; [reflexivity|]. split; [exact cycle_not_acyclic|]. split; [reflexivity|]. split; [vm_compute; reflexivity|].
  assert (S0 : succ (graph_of (m_g mut_cyc) [0; 1]) 0 = [1]) by (vm_compute; reflexivity).
  assert (S1 : succ (graph_of (m_g mut_cyc) [0; 1]) 1 = [0]) by (vm_compute; reflexivity).
  assert (G : forall res, (forall e, e <= 1 -> res e = st_default) -> forall n x, x <= 1 -> serial_loop n (graph_of (m_g mut_cyc) [0; 1]) res x st_default = None).
  { intros res Hres. induction n as [|n IH]; intros x Hx; [reflexivity|]. cbn [serial_loop]. rewrite (Hres x Hx). assert (X : x = 0 \/ x = 1) by lia. destruct X as [->| ->].
    - rewrite S0. change (st_plus st_default st_default) with st_default. change (isErr st_default) with false. cbv iota. rewrite IH by lia. reflexivity.
    - rewrite S1. change (st_plus st_default st_default) with st_default. change (isErr st_default) with false. cbv iota. rewrite IH by lia. reflexivity. }
  assert (F : forall n res, (forall e, e <= 1 -> res e = st_default) -> serial_from n mut_cyc [0; 1] res = None).
  { intros n res Hres. unfold serial_from. change (en_fronts (m_eng mut_cyc)) with [0]. cbv iota. change (prepare_status (m_status mut_cyc)) with st_default. apply G; [exact Hres|lia]. }
  split; [intros n; apply F; reflexivity|].
  intros ok tr st Hx. destruct Hx as [fuel tr st T Hs|c ls p st T _ _ _ _ _ _|c ls d st T _ _ _ _ _ _ _]; [|vm_compute in T; discriminate T|vm_compute in T; discriminate T].
  rewrite F in Hs; [discriminate|]. intros e He. assert (X : e = 0 \/ e = 1) by lia. destruct X as [->| ->]; vm_compute; reflexivity.
Qed.
Print Assumptions C86_returns_refuted.

(** And when it ends, elements may have been executed although the error is returned. *)
Definition mut_abc : mst := mut_next (mut_run dfl mut0 [0; 1; 2] [RLink 0 (Some 1); RLink 1 (Some 2)] st_default).
Definition ops_part := [RLink 1 (Some 2); RLink 2 (Some 1); RShow 0 true].
Definition mut_part : mst := mut_next (mut_run dfl mut_abc [0; 1; 2] ops_part st_default).
Theorem C86_nothing_runs_refuted : exists s2 tr st, ~ asks_acyclic ops_part /\
  mut_run dfl mut_abc [0; 1; 2] ops_part st_default = MEngine s2 err_dag /\
  mut_exec dfl s2 [0; 1; 2] false (fun _ _ => st_default) tr st /\ mut_status err_dag st = err_dag /\ body_count s2 (fun _ _ => st_default) tr 0 = 1.
Proof.
  exists mut_part. eexists. eexists.
  split. { intros H. apply (H 1). apply t_trans with 2; apply t_step; (split; [discriminate|cbn; auto]). }
  split; [unfold mut_part; destruct (mut_run dfl mut_abc [0; 1; 2] ops_part st_default) as [|r|s r] eqn:E; vm_compute in E; inversion E; reflexivity|].
  split; [apply (MXSerial _ _ _ _ _ 3); vm_compute; reflexivity|]. split; vm_compute; reflexivity.
Qed.
Print Assumptions C86_nothing_runs_refuted.

Example C86_nonvacuous : children mut0 9 [0; 1] /\ Forall (rop_on [0; 1]) ops_cycle /\ ~ asks_acyclic ops_cycle /\ m_eng mut0 = eng_init.
Proof.
  split. { apply mut_children; [repeat constructor; simpl; intuition discriminate|]. intros e _. split; reflexivity. }
  split. { apply Forall_forall. intros o Ho. cbn in Ho. repeat (destruct Ho as [<-|Ho]; [cbn; eauto 12|]). destruct Ho. }
  split; [exact cycle_not_acyclic|reflexivity].
Qed.
