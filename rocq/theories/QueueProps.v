(** C91: the task queues neither lose, duplicate nor reorder tasks, whatever the interleaving. *)
From Verif Require Import QueueProofs QueueWakeProofs QueueDrainProofs.
Local Open Scope nat_scope.
Local Open Scope list_scope.

(** C91 (1): for every number of threads and every interleaving, the calls on a queue have the effects of the same operations on a plain double-ended
    queue, one after the other: taking gives the oldest (stealing: the youngest) values, in that order. *)
Theorem C91_atomic n ls s : qrun n q_init ls = Some s ->
  (exists l, replay [] (q_tr s) = Some l) /\ (q_own s = None -> replay [] (q_tr s) = Some (q_l s)).
Proof.
  intros H. pose proof (reach_inv n ls s H) as V. destruct (i_lin s V) as (l & R & M). split; [eauto|].
  intros O. rewrite O in M. rewrite R, M. reflexivity.
Qed.
(** Thread 0 pushes 1, 2, 3 at once; thread 1 takes two values while thread 2 (which passed its test before) is refused the mutex; then thread 2 steals. *)
Definition ex_run : list qlabel :=
  [QCall 0 (OPush [1;2;3] false); QStep 0 None; QStep 0 None; QStep 0 None; QStep 0 None; QStep 0 None; QStep 0 None;
   QCall 1 (OPop 2); QCall 2 (OSteal 1); QStep 1 None; QStep 2 None; QStep 1 None; QStep 2 None; QStep 1 None; QStep 1 None; QStep 1 None; QStep 1 None;
   QCall 2 (OSteal 1); QStep 2 None; QStep 2 None; QStep 2 None; QStep 2 None; QStep 2 None].
Example C91_atomic_ex : exists s, qrun 3 q_init ex_run = Some s /\ q_own s = None /\ q_l s = [] /\
  q_tr s = [VCall 0 (OPush [1;2;3] false); VLin 0 (OPush [1;2;3] false) []; VRet 0 (Some []);
            VCall 1 (OPop 2); VCall 2 (OSteal 1); VRet 2 None; VLin 1 (OPop 2) [1;2]; VRet 1 (Some [1;2]);
            VCall 2 (OSteal 1); VLin 2 (OSteal 1) [3]; VRet 2 (Some [3])].
Proof. eexists. split; [vm_compute; reflexivity|]. vm_compute. auto. Qed.

(** C91 (2): that effect lies between the call and its return and gives the values that are returned; a call that returns false or null has no effect,
    and pushes do not fail. *)
Theorem C91_protocol n ls s t : qrun n q_init ls = Some s -> exists h, proto t HIdle (q_tr s) = Some h.
Proof. intros H. pose proof (reach_inv n ls s H) as V. eexists. apply (i_proto s V). Qed.
Example C91_protocol_ex : exists s, qrun 3 q_init (firstn 15 ex_run) = Some s /\ proto 0 HIdle (q_tr s) = Some HIdle /\ proto 1 HIdle (q_tr s) = Some (HCalled (OPop 2)) /\
  proto 1 HIdle [VLin 1 (OPop 1) [7]] = None /\ proto 1 HIdle [VCall 1 (OPop 1); VLin 1 (OPop 1) [7]; VRet 1 (Some [8])] = None.
Proof. eexists. split; [vm_compute; reflexivity|]. vm_compute. auto. Qed.

(** C91 (3): no value is lost, none is handed out twice. *)
Theorem C91_conserved n ls s : qrun n q_init ls = Some s -> q_own s = None -> Permutation (pushed (q_tr s)) (taken (q_tr s) ++ q_l s).
Proof. intros H O. exact (replay_perm (q_tr s) [] (q_l s) (proj2 (C91_atomic n ls s H) O)). Qed.
Corollary C91_once n ls s : qrun n q_init ls = Some s -> q_own s = None -> NoDup (pushed (q_tr s)) -> NoDup (taken (q_tr s)) /\ forall v, In v (q_l s) -> ~ In v (taken (q_tr s)).
Proof.
  intros H O N. pose proof (Permutation_NoDup (C91_conserved n ls s H O) N) as D. split.
  - clear -D. induction (taken (q_tr s)) as [|x r IH]; [constructor|]. cbn in D. inversion D; subst. constructor; [intros K; apply H1, in_or_app; auto|auto].
  - intros v I K. clear -D I K. induction (taken (q_tr s)) as [|x r IH]; [destruct K|]. cbn in D. inversion D; subst. destruct K as [->|K]; [apply H1, in_or_app; auto|auto].
Qed.
Example C91_conserved_ex : exists s, qrun 3 q_init (firstn 17 ex_run) = Some s /\ q_own s = None /\ pushed (q_tr s) = [1;2;3] /\ taken (q_tr s) = [1;2] /\ q_l s = [3].
Proof. eexists. split; [vm_compute; reflexivity|]. vm_compute. auto. Qed.

(** C91 (4): without stealing, values come out in the order in which they were put in. *)
Theorem C91_fifo n ls s : qrun n q_init ls = Some s -> q_own s = None -> no_steal (q_tr s) -> pushed (q_tr s) = taken (q_tr s) ++ q_l s.
Proof.
  intros H O NS. apply (replay_fifo (q_tr s)) with (l := []); [|exact (proj2 (C91_atomic n ls s H) O)].
  intros t m got I. destruct (C91_protocol n ls s t H) as (h & P). destruct (proto_called t (OSteal m) got (q_tr s) HIdle h P I) as [X|X]; [discriminate X|exact (NS t m X)].
Qed.
Example C91_fifo_ex : exists s, qrun 2 q_init
  [QCall 0 (OPush [4;5] false); QStep 0 None; QStep 0 None; QStep 0 None; QStep 0 None; QStep 0 None; QCall 1 (OPop 1); QStep 1 None; QStep 1 None; QStep 1 None; QStep 1 None; QStep 1 None] = Some s /\
  q_own s = None /\ taken (q_tr s) = [4] /\ q_l s = [5] /\ no_steal (q_tr s).
Proof.
  eexists. split; [vm_compute; reflexivity|]. split; [vm_compute; reflexivity|]. split; [vm_compute; reflexivity|]. split; [vm_compute; reflexivity|].
  intros t m I. cbn in I. repeat (destruct I as [I|I]; [discriminate I|]). exact I.
Qed.

(** C91 (5): no deadlock. From every state all calls can come to their end, without another call. *)
Theorem C91_drains n ls s : qrun n q_init ls = Some s -> exists ls' s', Forall drain_label ls' /\ qrun n s ls' = Some s' /\ forall t, q_pc s' t = PIdle.
Proof. intros H. apply (drain n (load n s)); [lia|exact (reach_inv n ls s H)|]. apply (run_out n ls q_init s H). reflexivity. Qed.
Example C91_drains_ex : exists s, qrun 3 q_init (firstn 13 ex_run) = Some s /\ q_own s = Some 1 /\ q_pc s 0 = PIdle /\ q_pc s 1 <> PIdle.
Proof. eexists. split; [vm_compute; reflexivity|]. vm_compute. split; [reflexivity|]. split; [reflexivity|discriminate]. Qed.

(** C91 (6): a thread that nobody disturbs gets what it asks for: the oldest [m] values (as many as there are) by taking, the youngest by stealing; its
    values are at the end of the queue after pushing. *)
Theorem C91_alone n ls s t : qrun n q_init ls = Some s -> t < n -> q_own s = None -> q_pc s t = PIdle ->
  (forall vs, exists ls' s', Forall (by_t t) ls' /\ qrun n s ls' = Some s' /\ q_l s' = q_l s ++ vs /\ q_tr s' = q_tr s ++ [VCall t (OPush vs false); VLin t (OPush vs false) []; VRet t (Some [])]) /\
  (forall m, q_l s <> [] -> exists ls' s', Forall (by_t t) ls' /\ qrun n s ls' = Some s' /\ q_l s' = skipn m (q_l s) /\
     q_tr s' = q_tr s ++ [VCall t (OPop m); VLin t (OPop m) (firstn m (q_l s)); VRet t (Some (firstn m (q_l s)))]) /\
  (forall m, q_l s <> [] -> exists ls' s', Forall (by_t t) ls' /\ qrun n s ls' = Some s' /\ q_l s' = rev (skipn m (rev (q_l s))) /\
     q_tr s' = q_tr s ++ [VCall t (OSteal m); VLin t (OSteal m) (firstn m (rev (q_l s))); VRet t (Some (firstn m (rev (q_l s))))]).
Proof.
  intros _ L O P. split; [|split].
  - intros vs. destruct (push_solo n t vs s L O P) as (ls' & s' & A & B & C & _ & E). eauto 6.
  - intros m Q. destruct (pop_solo n t m s L O P Q) as (ls' & s' & A & B & C & _ & E). eauto 6.
  - intros m Q. destruct (steal_solo n t m s L O P Q) as (ls' & s' & A & B & C & _ & E). eauto 6.
Qed.
Example C91_alone_ex : exists s, qrun 3 q_init (firstn 7 ex_run) = Some s /\ q_own s = None /\ q_pc s 1 = PIdle /\ q_l s = [1;2;3].
Proof. eexists. split; [vm_compute; reflexivity|]. vm_compute. auto. Qed.

(** C91 (7), no lost wake-up: while a thread sleeps in popWithTimeout of UAtomicQueue although there is a value, or although reset was called, some thread
    is about to wake a sleeper, or is awake and about to look at the queue. (In particular: when everybody else is done, nobody sleeps in front of a
    value.) *)
Theorem C91_wakeup n ls s t : atomic_queue ls -> qrun n q_init ls = Some s -> t < n -> q_pc s t = PSleep -> q_l s <> [] \/ q_ready s = false ->
  exists u, u < n /\ stirring (q_pc s u).
Proof. apply no_lost. Qed.
(** Thread 1 sleeps; thread 0 has pushed and not yet notified. *)
Example C91_wakeup_ex : exists s, qrun 2 q_init [QCall 1 OTimed; QStep 1 None; QStep 1 None; QCall 0 (OPush [7] true); QStep 0 None; QStep 0 None; QStep 0 None; QStep 0 None] = Some s /\
  q_pc s 1 = PSleep /\ q_l s = [7] /\ q_own s = None /\ q_pc s 0 = PNotify (OPush [7] true) [] /\
  atomic_queue [QCall 1 OTimed; QStep 1 None; QStep 1 None; QCall 0 (OPush [7] true); QStep 0 None; QStep 0 None; QStep 0 None; QStep 0 None].
Proof.
  eexists. split; [vm_compute; reflexivity|]. split; [vm_compute; reflexivity|]. split; [vm_compute; reflexivity|]. split; [vm_compute; reflexivity|]. split; [vm_compute; reflexivity|]. split.
  - intros t vs b I. cbn in I. repeat (destruct I as [I|I]; [first [discriminate I|injection I as <- <- <-; auto]|]). destruct I.
  - intros t v I. cbn in I. repeat (destruct I as [I|I]; [discriminate I|]). destruct I.
Qed.

(** C91 (8): the only accesses to the container that are not ordered by the mutex are the tests for emptiness at the begin of taking and stealing. *)
Theorem C91_race_partial n ls s : qrun n q_init ls = Some s -> race s -> reading_outside s.
Proof.
  intros H (t & u & N & A & B). pose proof (reach_inv n ls s H) as V.
  assert (HT : holds (q_pc s t) = true) by (destruct (q_pc s t); try discriminate A; reflexivity).
  assert (D : (exists o, q_pc s u = PTest o) \/ holds (q_pc s u) = true) by (destruct (q_pc s u); try (exfalso; apply B; reflexivity); eauto).
  destruct D as [(o & D)|D]; [exists u, o; exact D|]. apply (i_own s V) in HT. apply (i_own s V) in D. congruence.
Qed.
(** C91 (8) is false as it stands: tryPop and trySteal call empty() of the std::deque without the mutex while another thread changes the deque: a data race,
    i.e. undefined behaviour in C++. Two calls suffice, and they are ordinary: a push and a tryPop. *)
Theorem C91_race_refuted : exists n ls s, qrun n q_init ls = Some s /\ race s /\
  forall t o, In (QCall t o) ls -> o = OPush [1] false \/ o = OPop 1.
Proof.
  exists 2, [QCall 0 (OPush [1] false); QStep 0 None; QCall 1 (OPop 1)]. eexists. split; [vm_compute; reflexivity|]. split.
  - exists 0, 1. split; [discriminate|]. vm_compute. split; [reflexivity|discriminate].
  - intros t o I. cbn in I. repeat (destruct I as [I|I]; [first [discriminate I|injection I as <- <-; auto]|]). destruct I.
Qed.

Print Assumptions C91_atomic.
Print Assumptions C91_protocol.
Print Assumptions C91_conserved.
Print Assumptions C91_once.
Print Assumptions C91_fifo.
Print Assumptions C91_drains.
Print Assumptions C91_alone.
Print Assumptions C91_wakeup.
Print Assumptions C91_race_partial.
Print Assumptions C91_race_refuted.
