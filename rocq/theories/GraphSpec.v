(** Independent vocabulary for dependency graphs: edges, acyclicity, orders, layers. Nothing here mentions how
    the engines compute anything. *)
From Verif Require Export GraphModel.
Local Open Scope nat_scope.

(** [edge g d e]: element [e] of the set lists [d] as a dependency. *)
Definition edge (g : graph) (d e : nat) : Prop := In e (els g) /\ In d (dep g e).
(** [path g d e]: a chain of one or more dependencies leads from [d] to [e]. *)
Definition path (g : graph) : nat -> nat -> Prop := clos_trans nat (edge g).
Definition acyclic (g : graph) : Prop := forall e, ~ path g e e.

(** What dependency mutation guarantees (C02), plus: both ends of every edge are in the set. *)
Record wf (g : graph) : Prop := {
  wf_els : NoDup (els g);
  wf_dep : forall e, In e (els g) -> NoDup (dep g e) /\ incl (dep g e) (els g);
  wf_succ : forall e, In e (els g) -> NoDup (succ g e) /\ incl (succ g e) (els g);
  wf_sym : forall d e, In d (els g) -> In e (els g) -> (In d (dep g e) <-> In e (succ g d));
}.

(** [l] lists every element exactly once, each one after all its dependencies. *)
Definition topo_order (g : graph) (l : list nat) : Prop :=
  Permutation l (els g) /\ forall d e, edge g d e -> before l d e.

(** [m] partitions the elements in layers, dependencies in strictly earlier layers. *)
Definition layering (g : graph) (m : list (list nat)) : Prop :=
  Permutation (concat m) (els g) /\
  forall d e, edge g d e -> exists i j li lj, nth_error m i = Some li /\ nth_error m j = Some lj /\ i < j /\ In d li /\ In e lj.

(** * Vocabulary for engine traces (shared by the three engines) *)

Definition starts (tr : list gevent) : list nat :=
  flat_map (fun ev => match ev with GStart e => [e] | _ => [] end) tr.
Definition finishes (tr : list gevent) : list (nat * status) :=
  flat_map (fun ev => match ev with GFinish e s => [(e, s)] | _ => [] end) tr.

(** Whenever an element starts, each of its dependencies has already finished, without error. *)
Definition starts_after_deps (g : graph) (tr : list gevent) : Prop :=
  forall t1 e t2, tr = t1 ++ GStart e :: t2 ->
  forall d, In d (dep g e) -> exists r, In (GFinish d r) t1 /\ (0 <= code r)%Z.
(** No element starts twice. *)
Definition starts_once (tr : list gevent) : Prop := NoDup (starts tr).
(** Every element started exactly once and finished exactly once. *)
Definition all_ran (g : graph) (tr : list gevent) : Prop :=
  Permutation (starts tr) (els g) /\ Permutation (map fst (finishes tr)) (els g).
(** [e] is not (transitively) dependent on [f]. *)
Definition not_below (g : graph) (f e : nat) : Prop := ~ path g f e.
