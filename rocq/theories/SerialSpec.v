(** What it means that a tree of elements is executed on one thread, in order. *)
From Verif Require Export SerialModel GraphSpec.
Local Open Scope nat_scope.
Local Open Scope list_scope.

(** [P] holds of the element and of everything inside it. *)
Inductive everywhere (P : elt -> Prop) : elt -> Prop :=
| ev_here t : P t -> (forall c, In c (kidsof t) -> everywhere P c) -> everywhere P t.

(** The child a condition names by a number: the [n]-th from 0, or the last one for -1. *)
Inductive picks {A} : Z -> list A -> A -> Prop :=
| pk_last l c : picks (-1) (l ++ [c]) c
| pk_nth n l c : nth_error l n = Some c -> picks (Z.of_nat n) l c.

Section S.
Variable v : env.
(** [o] is an order of the elements [cs] in which every element comes after its dependencies. *)
Definition dep_order (cs o : list elt) : Prop :=
  Permutation o cs /\ forall d e, In d cs -> In e cs -> In (idof d) (n_dep v (idof e)) -> before o d e.
(** One after the other; after one that fails, none. *)
Inductive in_order (run : elt -> list sev -> bool -> Prop) : list elt -> list sev -> bool -> Prop :=
| io_nil : in_order run [] [] true
| io_ok c l tr tr' b : run c tr true -> in_order run l tr' b -> in_order run (c :: l) (tr ++ tr') b
| io_fail c l tr : run c tr false -> in_order run (c :: l) tr false.
(** The events of an element that runs on the thread, with everything inside it, and whether it ends well. *)
Inductive on_thread : elt -> list sev -> bool -> Prop :=
| ot_node i cs : on_thread (E i KNode cs) [SStart i; SEnd i (n_ok v i)] (n_ok v i)
| ot_cluster i cs tr b : in_order on_thread cs tr b -> on_thread (E i KCluster cs) (SStart i :: tr ++ [SEnd i b]) b
| ot_multi i cs tr b : in_order on_thread (filter (fun c => n_match v (idof c)) cs) tr b -> on_thread (E i KMultiS cs) (SStart i :: tr ++ [SEnd i b]) b
| ot_none i cs : (forall c, ~ picks (n_choice v i) cs c) -> on_thread (E i KCond cs) [SStart i; SEnd i true] true
| ot_chosen i cs c tr b : picks (n_choice v i) cs c -> on_thread c tr b -> on_thread (E i KCond cs) (SStart i :: tr ++ [SEnd i b]) b
| ot_region i cs o tr b : dep_order cs o -> in_order on_thread o tr b -> on_thread (E i (KRegion true) cs) (SStart i :: tr ++ [SEnd i b]) b.

(** Dependencies stay within the level, are symmetric to the lists of successors, and have no cycle (C02, C05). *)
Definition level_ok (cs : list elt) : Prop := wf (level v cs) /\ acyclic (level v cs).
(** All elements of the level have the same binding. *)
Definition one_binding (cs : list elt) : Prop := forall c d, In c cs -> In d cs -> n_bind v (idof c) = n_bind v (idof d).
Definition region_ok (t : elt) : Prop := match t with E _ (KRegion _) cs => level_ok cs | _ => True end.
(** No timeout, no parallel multi condition, one binding in a region. *)
Definition plain (t : elt) : Prop := n_async v (idof t) = false /\ match t with E _ KMultiP _ => False | E _ (KRegion _) cs => one_binding cs | _ => True end.
End S.
