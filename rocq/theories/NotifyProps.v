(** Property C124: run comes to its end although elements that nobody waits for go on to notify events. *)
From Verif Require Import EventModel NotifyModel NotifyProofs.
Local Open Scope nat_scope.
Local Open Scope list_scope.

(** How many of the elements that the engine does not wait for are to make a notification that run has to wait for (PIPELINE_RUN_FINISH). *)
Definition left_notifiers (ls : list nlabel) : nat := length (filter (fun l => match l with NLeft r => existsb (fun p => is_rf (snd p)) r | _ => false end) ls).
Lemma adds_count ls : list_sum (map adds ls) = left_notifiers ls.
Proof.
  unfold left_notifiers. induction ls as [|l ls IH]; [easy|]. cbn [map list_sum fold_right filter]. change (fold_right Nat.add 0 ?l) with (list_sum l). rewrite IH. destruct l as [k g|r| | |t|t|t|t]; try easy. cbn [adds].
  destruct (existsb _ r); easy.
Qed.
(** What goes on without the help of anyone: the thread inside run, and the threads of the pool. *)
Definition by_itself (l : nlabel) : Prop := match l with NMain | NStart _ | NCommit _ | NStore _ | NFinish _ => True | _ => False end.

(** While run waits, something can go on, if fewer such elements were left than the pool has threads. *)
Theorem C124_progress_partial : forall keys W ls s todo cur, nrun keys W n_new ls = Some s -> left_notifiers ls < W -> n_ph s = NWait todo cur -> exists l s', by_itself l /\ nstep keys W s l = Some s'.
Proof.
  intros keys W ls s todo cur E L P. destruct (run_inv keys W ls n_new s NI_new E) as [I R]. rewrite adds_count in R. cbn [risks n_new n_next seq filter length] in R.
  destruct (progress keys W s todo cur I P) as (l & s' & H & G); [unfold risks in *; lia|]. exists l, s'. split; [|easy]. destruct H as [->|(t & [->|[->| ->]])]; exact Logic.I.
Qed.
Print Assumptions C124_progress_partial.
(** And this can happen finitely often only, whatever the number of threads: from every state there is a bound on all that can follow without a new element. *)
Theorem C124_bounded : forall keys W ls s, NoDup keys -> nrun keys W n_new ls = Some s ->
  exists bound, forall ls' s', (forall l, In l ls' -> by_itself l) -> nrun keys W s ls' = Some s' -> length ls' <= bound.
Proof.
  intros keys W ls s N E. destruct (run_inv keys W ls n_new s NI_new E) as [I _]. assert (O : todo_ok keys s) by (apply (todo_run keys W ls n_new s); [now split|easy]).
  exists (total keys s). intros ls' s' H E'. pose proof (total_run keys W ls' s s' I O) as T. enough (F : forallb internal ls' = true) by (specialize (T F E'); lia).
  apply forallb_forall. intros l Hl. specialize (H l Hl). now destruct l.
Qed.
Print Assumptions C124_bounded.
(** So run returns: wherever a schedule stops because nothing can go on, run has returned. *)
Theorem C124_returns_partial : forall keys W ls s, nrun keys W n_new ls = Some s -> left_notifiers ls < W -> n_ph s <> NElems ->
  (forall l, by_itself l -> nstep keys W s l = None) -> n_ph s = NRet.
Proof.
  intros keys W ls s E L P H. destruct (n_ph s) as [|todo cur|] eqn:Q; [easy| |easy]. destruct (C124_progress_partial keys W ls s todo cur E L Q) as (l & s' & B & G). rewrite (H l B) in G. discriminate.
Qed.
Print Assumptions C124_returns_partial.

(** As many such elements as there are threads are enough to make run wait for ever, for every number of threads and every first event of the map: all threads wait for the lock of the event, which the thread
    inside run holds while it waits for a trigger that no thread is left to execute. *)
Section Dead.
Variables (W k : nat) (rest : list nat).
Local Notation keys := (k :: rest).
Definition lefts (i : nat) (s : nst) : Prop := n_ph s = NElems /\ n_next s = i /\ n_rf s k = [] /\ forall t, t < i -> n_task s t = KQueued [(k, RunFinish)].
Lemma lefts_run m : forall i s, lefts i s -> exists s', nrun keys W s (repeat (NLeft [(k, RunFinish)]) m) = Some s' /\ lefts (i + m) s'.
Proof.
  induction m as [|m IH]; intros i s H; [exists s; rewrite Nat.add_0_r; auto|]. cbn [repeat nrun nstep]. destruct H as (P & N & F & T). rewrite P.
  destruct (IH (S i) (n_commit s [(k, RunFinish)])) as (s' & E & L).
  - split; [exact P|]. split; [cbn; lia|]. split; [exact F|]. intros t Ht. cbn [n_commit n_task]. destruct (Nat.eq_dec t (n_next s)) as [->|D]; [now rewrite upd_same|]. rewrite upd_other by easy. apply T. lia.
  - exists s'. replace (i + S m) with (S i + m) by lia. auto.
Qed.
Definition started (i : nat) (s : nst) : Prop := n_ph s = NWait rest (Some (k, [W])) /\ n_next s = S W /\ n_task s W = KQueued [] /\
  (forall t, t < i -> n_task s t = KRun [(k, RunFinish)] None) /\ forall t, i <= t < W -> n_task s t = KQueued [(k, RunFinish)].
Lemma started_run m : forall i s, i + m = W -> started i s -> exists s', nrun keys W s (map NStart (seq i m)) = Some s' /\ started W s'.
Proof.
  induction m as [|m IH]; intros i s Q H; [exists s; split; [easy|]; now replace W with i by lia|]. cbn [seq map nrun nstep]. pose proof H as (P & N & TW & T1 & T2). rewrite (T2 i) by lia.
  assert (B : busy s <= i).
  { unfold busy. transitivity (length (seq 0 i)); [|now rewrite seq_length]. apply NoDup_incl_length; [apply NoDup_filter, seq_NoDup|]. intros t Ht. apply filter_In in Ht. destruct Ht as [Ht R]. apply in_seq in Ht. apply in_seq.
    destruct (le_lt_dec i t) as [L|L]; [|lia]. exfalso. destruct (Nat.eq_dec t W) as [->|D]; [rewrite TW in R; discriminate|]. rewrite T2 in R by lia. discriminate. }
  assert (B' : busy s <? W = true) by (apply Nat.ltb_lt; lia). rewrite B'. destruct (IH (S i) (n_set s i (KRun [(k, RunFinish)] None))) as (s' & E & L); [lia| |exists s'; auto].
  split; [exact P|]. split; [exact N|]. cbn [n_set n_task]. split; [rewrite upd_other by lia; exact TW|]. split; intros t Ht.
  - destruct (Nat.eq_dec t i) as [->|D]; [now rewrite upd_same|]. rewrite upd_other by easy. apply T1. lia.
  - rewrite upd_other by lia. apply T2. lia.
Qed.
Definition stopped (i : nat) (s : nst) : Prop := n_ph s = NWait rest (Some (k, [W])) /\ n_next s = S W + i /\ n_task s W = KQueued [] /\
  (forall t, t < i -> blocked k (n_task s t) = true) /\ forall t, i <= t < W -> n_task s t = KRun [(k, RunFinish)] None.
Lemma stopped_run m : forall i s, i + m = W -> stopped i s -> exists s', nrun keys W s (map NCommit (seq i m)) = Some s' /\ stopped W s'.
Proof.
  induction m as [|m IH]; intros i s Q H; [exists s; split; [easy|]; now replace W with i by lia|]. cbn [seq map nrun nstep]. pose proof H as (P & N & TW & T1 & T2). rewrite (T2 i) by lia.
  assert (M : memb k keys = true) by (apply memb_in; now left). rewrite M. cbn [is_rf].
  destruct (IH (S i) (n_set (n_commit s []) i (KRun [] (Some (k, n_next s))))) as (s' & E & L); [lia| |exists s'; auto].
  split; [exact P|]. split; [cbn; lia|]. cbn [n_set n_commit n_task]. split; [rewrite !upd_other by lia; exact TW|]. split; intros t Ht.
  - destruct (Nat.eq_dec t i) as [->|D]; [rewrite upd_same; cbn; apply Nat.eqb_refl|]. rewrite !upd_other by lia. apply T1. lia.
  - rewrite !upd_other by lia. apply T2. lia.
Qed.
Definition dead_schedule : list nlabel := repeat (NLeft [(k, RunFinish)]) W ++ [NCall k RunFinish; NEnd; NMain] ++ map NStart (seq 0 W) ++ map NCommit (seq 0 W).
Lemma dead_reached : exists s, nrun keys W n_new dead_schedule = Some s /\ Dead W s.
Proof.
  unfold dead_schedule. rewrite nrun_app. destruct (lefts_run W 0 n_new) as (s1 & E1 & (P1 & N1 & F1 & T1)); [repeat split; easy|]. rewrite E1. cbn [Nat.add] in *.
  assert (M : memb k keys = true) by (apply memb_in; now left). cbn [app nrun nstep]. rewrite P1, M. cbn [is_rf]. cbn [n_store n_commit n_ph n_with n_rf n_next n_task]. rewrite P1. cbn [n_store n_commit n_ph n_with n_rf n_next n_task]. rewrite upd_same, F1, N1. cbn [app].
  match goal with |- context [nrun _ _ ?s (map NStart _ ++ _)] => set (s2 := s) end. rewrite nrun_app.
  destruct (started_run W 0 s2 eq_refl) as (s3 & E3 & (P3 & N3 & TW3 & T3 & _)).
  { unfold s2. split; [reflexivity|]. split; [cbn; now rewrite N1|]. cbn [n_with n_store n_commit n_task]. rewrite N1. split; [apply upd_same|]. split; [lia|]. intros t Ht. rewrite upd_other by lia. apply T1. lia. }
  rewrite E3. destruct (stopped_run W 0 s3 eq_refl) as (s4 & E4 & (P4 & N4 & TW4 & T4 & _)).
  { split; [exact P3|]. split; [lia|]. split; [exact TW3|]. split; [lia|]. intros t Ht. apply T3. lia. }
  exists s4. split; [exact E4|]. exists rest, k, W, []. split; [exact P4|]. split; [exact TW4|]. transitivity (length (seq 0 W)); [now rewrite seq_length|]. apply NoDup_incl_length; [apply seq_NoDup|].
  intros t Ht. apply in_seq in Ht. apply filter_In. split; [apply in_seq; lia|]. apply T4. lia.
Qed.
End Dead.
Theorem C124_refuted : forall W k rest, exists ls s, left_notifiers ls = W /\ nrun (k :: rest) W n_new ls = Some s /\
  forall ls' s', nrun (k :: rest) W s ls' = Some s' -> n_ph s' <> NRet.
Proof.
  intros W k rest. destruct (dead_reached W k rest) as (s & E & D). exists (dead_schedule W k), s. split; [|split; [exact E|]].
  - unfold dead_schedule, left_notifiers. rewrite !filter_app, !app_length. cbn [filter length]. 
    assert (R : forall n, length (filter (fun l => match l with NLeft r => existsb (fun p => is_rf (snd p)) r | _ => false end) (repeat (NLeft [(k, RunFinish)]) n)) = n) by (induction n; cbn; auto).
    assert (Z : forall (f : nat -> nlabel) l, (forall t, match f t with NLeft _ => False | _ => True end) -> length (filter (fun l => match l with NLeft r => existsb (fun p => is_rf (snd p)) r | _ => false end) (map f l)) = 0).
    { intros f l H. induction l as [|t l IH]; [easy|]. cbn. specialize (H t). destruct (f t); easy. }
    rewrite R, !Z by (intros; exact I). lia.
  - intros ls' s'. destruct (run_inv (k :: rest) W _ n_new s NI_new E) as [I _]. now apply dead_run.
Qed.
Print Assumptions C124_refuted.

(** Two threads, one left element that notifies event 7 while run waits for it: its future is stored after run has given the lock back, and run returns. *)
Example C124_nonvacuous : let ls := [NLeft [(7, RunFinish); (8, NoWait)]; NCall 7 RunFinish; NEnd; NMain; NStart 0; NCommit 0; NStart 1; NFinish 1; NMain; NMain; NStore 0; NCommit 0; NFinish 0; NMain] in
  left_notifiers ls < 2 /\ exists s, nrun [7] 2 n_new ls = Some s /\ n_ph s = NRet /\ n_task s 1 = KDone /\ n_task s 2 = KQueued [].
Proof. split; [cbn; lia|]. eexists. split; [vm_compute; reflexivity|]. repeat split. Qed.
