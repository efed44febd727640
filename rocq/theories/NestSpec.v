(** Specification vocabulary for C94. *)
From Verif Require Export NestModel.
From Verif Require PoolModel.
Local Open Scope nat_scope.
Local Open Scope list_scope.

(** A tree of elements, with dependencies without cycles among the children of each group. *)
Record plan_ok (p : plan) : Prop := {
  po_nodup : NoDup (e_all p);
  po_root : In (e_root p) (e_all p);
  po_kid : forall g c, In c (e_kids p g) -> e_par p c = g /\ c <> e_root p /\ In c (e_all p);
  po_par : forall c, In c (e_all p) -> c <> e_root p -> In c (e_kids p (e_par p c)) /\ In (e_par p c) (e_all p);
  po_kids : forall g, NoDup (e_kids p g);
  po_node : forall e, e_kind p e = KNode -> e_kids p e = [];
  po_tree : exists depth, forall c, In c (e_all p) -> c <> e_root p -> depth (e_par p c) < depth c;
  po_dep : forall c d, In d (e_dep p c) -> In c (e_all p) -> In d (e_kids p (e_par p c));
  po_dag : exists rank, forall c d, In d (e_dep p c) -> rank d < rank c
}.
(** The groups inside of the pipeline that keep a thread waiting. *)
Definition waiters (p : plan) : list nat := filter (fun g => is_par p g && negb (Nat.eqb g (e_root p))) (e_all p).
(** The threads of the pool that take tasks from queue [q]. *)
Definition takers (workers : nat) (reach : nat -> nat -> bool) (q : nat) : list nat := filter (fun w => reach w q) (seq 1 workers).
(** Nobody can do anything. *)
Definition blocked (p : plan) (workers : nat) (reach : nat -> nat -> bool) (s : nst) : Prop := forall lb, nstep p workers reach s lb = None.
(** The run is over: the caller and all threads have nothing left to do, everything was executed exactly once. *)
Definition complete (p : plan) (s : nst) : Prop :=
  (forall t, n_prog s t = []) /\ n_q s = [] /\ NoDup (n_begun s) /\ NoDup (n_done s) /\ (forall e, In e (n_begun s) <-> In e (e_all p)) /\ (forall e, In e (n_done s) <-> In e (e_all p)).

(** The queues of the pool: number i < c_def is the queue of thread i (worker i + 1), every other number is the common queue. *)
Definition pool_reach (c : PoolModel.cfg) (w q : nat) : bool :=
  Nat.leb (PoolModel.c_def c) q || Nat.eqb q (w - 1) || memb q (PoolModel.targets c (w - 1)).
