(** What C117 says: data under nested groups (TreeModel for the groups, DataModel for what nodes do between their starts and ends). *)
From Verif Require Import DataProofs.
From Verif Require Export DataSpec TreeSpec.
From Coq Require Import ZArith.
Local Open Scope nat_scope.
Local Open Scope list_scope.

Definition is_node (T : tree) (e : nat) : bool := match t_kind T e with TNode => true | _ => false end.
(** The nodes of the pipeline. *)
Definition node (T : tree) (e : nat) : Prop := inside T (t_root T) e /\ t_kind T e = TNode.
(** The starts and ends of nodes. *)
Definition of_nodes (T : tree) (lg : list gevent) : list gevent := filter (fun x => is_node T (elem_of x)) lg.
(** Sequences execute each child once (the executions of a loop are different elements here, with the same body), and no group chooses (a condition is here the sequence of the child it chooses): every execution of a group executes all its children. *)
Definition once (T : tree) : Prop := forall e may, t_kind T e = TSeq may -> forall l, may l -> NoDup l.
Definition steady (T : tree) : Prop := forall e may, t_kind T e = TSeq may \/ t_kind T e = TPar may -> forall l, may l -> incl (t_kids T e) l.
(** Some group orders the child in which [x] is before the child in which [y] is. *)
Definition ordered_in (T : tree) (x y : nat) : Prop := exists r a b, In a (t_kids T r) /\ In b (t_kids T r) /\ precedes T r a b /\ inside T a x /\ inside T b y.
(** Nodes that may touch the same data, one of them writing, are ordered by some group around them. *)
Definition tree_race_free (T : tree) (body : nat -> prog) : Prop :=
  exists R W, (forall e, node T e -> within (R e) (W e) (body e)) /\ forall e f, node T e -> node T f -> e <> f -> conflict R W e f -> ordered_in T e f \/ ordered_in T f e.
(** A list of all nodes in an order that all groups allow. *)
Definition respects (T : tree) (o : list nat) : Prop := NoDup o /\ (forall e, In e o <-> node T e) /\ forall x y, node T x -> node T y -> ordered_in T x y -> before o x y.
(** [lg] has a run of the pipeline that ended well. *)
Definition succeeded (T : tree) (lg : list gevent) : Prop := exists v, In (GFinish (t_root T) v) lg /\ (0 <= code v)%Z.
Definition ended_run (T : tree) (lg : list gevent) : Prop := exists v, In (GFinish (t_root T) v) lg.
(** Two trees that differ only in their engines, and in dependencies that do not change the order. *)
Definition same_shape (T T' : tree) : Prop := t_root T' = t_root T /\ (forall e, t_kids T' e = t_kids T e) /\ (forall e, is_node T' e = is_node T e) /\ forall x y, ordered_in T' x y <-> ordered_in T x y.
(** [n] runs one after another, each successful, from data [m] to data [m']. *)
Inductive tree_runs (T : tree) (body : nat -> prog) : mem -> nat -> mem -> Prop :=
| tr_0 m : tree_runs T body m 0 m
| tr_S m t x s n m' : reach T s -> n_starts (t_root T) (s_log s) <= 1 -> xall body (x_new m) t = Some x -> x_tr x = of_nodes T (s_log s) -> succeeded T (s_log s) -> tree_runs T body (x_mem x) n m' -> tree_runs T body m (S n) m'.
