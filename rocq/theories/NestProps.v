(** C94: a run with nested groups ends if the pool has enough threads. *)
From Verif Require Export NestEndProofs.
From Verif Require PoolModel.
From Coq Require Import Lia.
Local Open Scope nat_scope.
Local Open Scope list_scope.

(** For every plan, every pool and every schedule: if every queue is served by more threads than there are groups (other than the pipeline itself) that keep a thread waiting, then no
    schedule has more than 4 * n actions, no reachable state is stuck before the run is over, and from every reachable state the run can be ended.
    Missing (the full claim is about every pool): see C94_starved_refuted. *)
Theorem C94_ends_partial : forall p W R, plan_ok p -> (forall q, length (waiters p) < length (takers W R q)) ->
  forall ls s, nrun p W R (n_init p) ls = Some s ->
  length ls <= 4 * length (e_all p) /\ (blocked p W R s -> complete p s) /\ exists ls' s', nrun p W R s ls' = Some s' /\ complete p s' /\ blocked p W R s'.
Proof.
  intros p W R K L ls s RUN. destruct (nrun_inv p W R _ ls s K (ninv_init p W K) RUN) as [V SZ]. pose proof (size_bound p W s V) as SB. split; [unfold size in *; cbn [n_init n_begun n_done n_over n_taken length] in SZ; lia|].
  split; [intros B; exact (blocked_complete p W R s K V B L)|]. destruct (reaches_end p W R s K V) as (ls' & s' & RUN' & B). exists ls', s'. split; [exact RUN'|].
  split; [|exact B]. apply (blocked_complete p W R s' K); [apply (nrun_inv p W R s ls' s' K V RUN')|exact B|exact L].
Qed.
(** In every schedule, whatever the pool: nothing starts twice or before its group and its dependencies, and a group ends after its children. *)
Theorem C94_order : forall p W R, plan_ok p -> forall ls s, nrun p W R (n_init p) ls = Some s ->
  NoDup (n_begun s) /\ NoDup (n_done s) /\ (forall e, In e (n_begun s) -> In e (e_all p) /\ (e <> e_root p -> In (e_par p e) (n_begun s))) /\
  (forall e, In e (n_begun s) -> e <> e_root p -> e_kind p (e_par p e) = KPar -> forall d, In d (e_dep p e) -> In d (n_done s)) /\
  (forall g c, In g (n_done s) -> In c (e_kids p g) -> In c (n_done s)) /\ (forall e, In e (n_done s) -> In e (n_begun s)).
Proof.
  intros p W R K ls s RUN. destruct (nrun_inv p W R _ ls s K (ninv_init p W K) RUN) as [V _].
  assert (L : forall e, In e (n_begun s) -> live s e) by (intros e I; right; right; exact I).
  split; [apply (v_b p W s V)|]. split; [apply (v_d p W s V)|]. split; [|split; [|split; [apply (v_kids p W s V)|apply (v_done p W s V)]]].
  - intros e I. split; [apply (v_all p W s V), L, I|]. intros N. destruct (v_rel p W s V e (L e I)) as [E|(A & _)]; [contradiction|exact A].
  - intros e I N KP d D. destruct (v_rel p W s V e (L e I)) as [E|(_ & _ & A)]; [contradiction|exact (A KP d D)].
Qed.

(** The pool of the code. *)
Lemma takers_many W R q l : NoDup l -> (forall w, In w l -> 1 <= w <= W /\ R w q = true) -> length l <= length (takers W R q).
Proof. intros N H. apply NoDup_incl_length; [exact N|]. intros w I. destruct (H w I) as [A B]. unfold takers. apply filter_In. split; [apply in_seq; lia|exact B]. Qed.
Lemma sr_lt c : 1 <= PoolModel.c_def c -> PoolModel.steal_range c < PoolModel.c_def c.
Proof. unfold PoolModel.steal_range. lia. Qed.
Lemma pool_takers c q : 1 <= PoolModel.c_def c -> PoolModel.steal_range c < length (takers (PoolModel.c_def c) (pool_reach c) q).
Proof.
  intros C. pose proof (sr_lt c C) as SR. set (n := PoolModel.c_def c) in *. set (k := PoolModel.steal_range c) in *. destruct (Nat.leb_spec n q) as [Q|Q].
  - apply Nat.lt_le_trans with (length (seq 1 n)); [rewrite seq_length; exact SR|]. apply takers_many; [apply seq_NoDup|]. intros w I. apply in_seq in I. split; [lia|]. unfold pool_reach. fold n. rewrite (proj2 (Nat.leb_le n q)) by exact Q. reflexivity.
  - set (g := fun m => S (if Nat.leb m q then q - m else q + n - m)).
    apply Nat.lt_le_trans with (length (map g (seq 0 (S k)))); [rewrite map_length, seq_length; lia|]. apply takers_many.
    + assert (X : forall a b, a < n -> b < n -> g a = g b -> a = b) by (intros a b A B; unfold g; destruct (Nat.leb_spec a q); destruct (Nat.leb_spec b q); lia).
      assert (Y : forall l, NoDup l -> (forall a, In a l -> a < n) -> NoDup (map g l)).
      { intros l N. induction N as [|a l NA N IH]; intros B; cbn [map]; [constructor|]. constructor; [|apply IH; intros b I; apply B; right; exact I]. intros I. apply in_map_iff in I. destruct I as (b & E & I). apply X in E; [subst b; contradiction|apply B; right; exact I|apply B; left; reflexivity]. }
      apply Y; [apply seq_NoDup|]. intros a I. apply in_seq in I. lia.
    + intros w I. apply in_map_iff in I. destruct I as (m & <- & I). apply in_seq in I. unfold g. split; [destruct (Nat.leb_spec m q); lia|].
      unfold pool_reach. fold n. replace (S (if Nat.leb m q then q - m else q + n - m) - 1) with (if Nat.leb m q then q - m else q + n - m) by lia.
      destruct m as [|m]; [cbn [Nat.leb]; rewrite Nat.sub_0_r, Nat.eqb_refl, orb_true_r; reflexivity|].
      apply orb_true_iff. right. apply memb_in. unfold PoolModel.targets. fold n k. apply in_map_iff. exists m. split; [|apply in_seq; lia].
      destruct (Nat.leb_spec (S m) q) as [A|A].
      * replace (q - S m + m + 1) with q by lia. apply Nat.mod_small, Q.
      * replace (q + n - S m + m + 1) with (q + 1 * n) by lia. rewrite Nat.mod_add by lia. apply Nat.mod_small, Q.
Qed.
(** With any configuration of the pool: as long as at most steal range many groups keep threads waiting, wherever the tasks are put, every run ends.
    Missing: more groups than that. *)
Theorem C94_pool_ends_partial : forall c p, 1 <= PoolModel.c_def c -> plan_ok p -> length (waiters p) <= PoolModel.steal_range c ->
  forall ls s, nrun p (PoolModel.c_def c) (pool_reach c) (n_init p) ls = Some s ->
  length ls <= 4 * length (e_all p) /\ (blocked p (PoolModel.c_def c) (pool_reach c) s -> complete p s) /\
  exists ls' s', nrun p (PoolModel.c_def c) (pool_reach c) s ls' = Some s' /\ complete p s' /\ blocked p (PoolModel.c_def c) (pool_reach c) s'.
Proof.
  intros c p C K L ls s RUN. apply (C94_ends_partial p _ _ K) with (ls := ls); [|exact RUN]. intros q. pose proof (pool_takers c q C). lia.
Qed.

(** The bound is exact. For every number of threads and every queue: a pipeline with as many parallel regions as there are threads that serve the queue, and one node, can get stuck for ever
    with nothing finished and tasks in the queue, when the tasks are put into that queue and taken one by one from its front.
    In the code the common queue is such a queue: regions are bound to it (GRegion.cpp 16, UThreadPool.inl 65-67), and while no thread sleeps so is every task without a binding (UThreadPool.cpp 211-218). *)
Theorem C94_starved_refuted : forall W R q0, let p := star (length (takers W R q0)) in
  plan_ok p /\ length (waiters p) = length (takers W R q0) /\
  exists ls s, nrun p W R (n_init p) ls = Some s /\ (forall t own pl, In (LGo t own pl) ls -> own = None /\ forall e, pl e = q0) /\ blocked p W R s /\ n_done s = [] /\ n_q s <> [] /\ ~ complete p s.
Proof.
  intros W R q0 p. split; [apply star_ok|]. split; [apply star_waiters|]. destruct (starved W R q0) as (ls & s & RUN & F & B & D & Q). exists ls, s.
  split; [exact RUN|]. split; [exact F|]. split; [exact B|]. split; [exact D|]. split; [exact Q|]. intros (_ & X & _). contradiction.
Qed.
(** In the pool of the code, through the common queue: c_def regions are too many. *)
Lemma pool_common c : length (takers (PoolModel.c_def c) (pool_reach c) (PoolModel.c_def c)) = PoolModel.c_def c.
Proof. unfold takers. rewrite filter_all; [apply seq_length|]. intros w _. unfold pool_reach. rewrite Nat.leb_refl. reflexivity. Qed.
Theorem C94_pool_starved_refuted : forall c, exists p ls s, plan_ok p /\ length (waiters p) = PoolModel.c_def c /\
  nrun p (PoolModel.c_def c) (pool_reach c) (n_init p) ls = Some s /\ blocked p (PoolModel.c_def c) (pool_reach c) s /\ n_done s = [] /\ ~ complete p s.
Proof.
  intros c. destruct (C94_starved_refuted (PoolModel.c_def c) (pool_reach c) (PoolModel.c_def c)) as (K & WT & ls & s & RUN & _ & B & D & _ & N). rewrite pool_common in *.
  exists (star (PoolModel.c_def c)), ls, s. auto 10.
Qed.

(** The default pool: seven waiting groups never stop it, eight can. *)
Example C94_default : PoolModel.c_def PoolModel.cfg_default = 8 /\ PoolModel.steal_range PoolModel.cfg_default = 7.
Proof. split; reflexivity. Qed.
Example C94_default_case : plan_ok (star 7) /\ length (waiters (star 7)) <= PoolModel.steal_range PoolModel.cfg_default /\ length (e_all (star 7)) = 23.
Proof. split; [apply star_ok|]. split; [rewrite star_waiters; vm_compute; lia|reflexivity]. Qed.
(** A run to the end: two regions on three threads, one region's second node executed by the thread that frees it. *)
Definition ex_plan : plan :=
  mkPlan [0; 1; 2; 3; 4; 5] 0 (fun e => if memb e [0; 1; 2] then KPar else KNode) (fun g => match g with 0 => [1; 2] | 1 => [3; 4] | 2 => [5] | _ => [] end)
    (fun e => match e with 3 | 4 => 1 | 5 => 2 | _ => 0 end) (fun e => if Nat.eqb e 4 then [3] else []).
Example C94_plan_case : plan_ok ex_plan /\ forall q, length (waiters ex_plan) < length (takers 3 (fun _ _ => true) q).
Proof.
  split; [|intros q; vm_compute; lia]. split; cbn [ex_plan e_all e_root e_kind e_kids e_par e_dep].
  - repeat (constructor; [cbn [In]; lia|]). constructor.
  - left. reflexivity.
  - intros g c. destruct g as [|[|[|g]]]; cbn [In]; intros I; [| | |destruct I]; decompose [or] I; subst; try contradiction; cbn [In]; (split; [reflexivity|lia]).
  - intros c I N. cbn [In] in I. decompose [or] I; subst; cbn [In]; try contradiction; lia.
  - intros g. destruct g as [|[|[|g]]]; repeat (constructor; [cbn [In]; lia|]); constructor.
  - intros e. destruct e as [|[|[|e]]]; cbn; try discriminate. reflexivity.
  - exists (fun e => match e with 0 => 0 | 1 | 2 => 1 | _ => 2 end). intros c I N. cbn [In] in I. decompose [or] I; subst; try contradiction; lia.
  - intros c d. destruct (Nat.eqb_spec c 4) as [E|E]; [|intros []]. subst c. intros [<-|[]] _. left. reflexivity.
  - exists (fun e => e). intros c d. destruct (Nat.eqb_spec c 4) as [E|E]; [|intros []]. subst c. intros [<-|[]]. lia.
Qed.
Example C94_ends_case : exists s, nrun ex_plan 3 (fun _ _ => true) (n_init ex_plan)
  ([LGo 0 None (fun _ => 0); LTake 1 0 (Nat.eqb 1) false; LTake 2 0 (Nat.eqb 2) true; LGo 1 None (fun _ => 1); LGo 2 (Some 5) (fun _ => 0)] ++
   [LTake 3 1 (Nat.eqb 3) false; LGo 3 None (fun _ => 0); LGo 3 (Some 4) (fun _ => 0); LGo 3 None (fun _ => 0); LGo 3 None (fun _ => 0)] ++
   [LGo 2 None (fun _ => 0); LGo 2 None (fun _ => 0); LGo 2 None (fun _ => 0); LGo 2 None (fun _ => 0); LGo 1 None (fun _ => 0); LGo 1 None (fun _ => 0); LGo 0 None (fun _ => 0); LGo 0 None (fun _ => 0)]) = Some s /\
  n_done s = [3; 4; 5; 2; 1; 0] /\ n_begun s = [0; 1; 2; 3; 4; 5] /\ n_q s = [] /\ n_prog s 0 = [].
Proof. eexists. split; [vm_compute; reflexivity|]. repeat split. Qed.
(** Stuck: one thread, one region. *)
Example C94_starved_case : exists s, nrun (star 1) 1 (fun _ _ => true) (n_init (star 1)) [LGo 0 None (fun _ => 0); LTake 1 0 (Nat.eqb 3) false; LGo 1 None (fun _ => 0)] = Some s /\
  n_prog s 0 = [Wait 0; End 0] /\ n_prog s 1 = [Wait 3; End 3] /\ n_q s = [(0, 1); (0, 4); (0, 5)] /\ n_done s = [].
Proof. eexists. split; [vm_compute; reflexivity|]. repeat split. Qed.

Print Assumptions C94_ends_partial.
Print Assumptions C94_order.
Print Assumptions C94_pool_ends_partial.
Print Assumptions C94_starved_refuted.
Print Assumptions C94_pool_starved_refuted.
