(** What C116 says, in terms of the starts and ends of elements at all depths. *)
From Verif Require Export TreeModel.
From Coq Require Import ZArith.
Local Open Scope nat_scope.
Local Open Scope list_scope.

(** A tree of elements; the dependencies among the children of a region have no cycle; groups execute children of their own, a parallel multi-condition each at most once. The pipeline is a group without aspects. *)
Definition kind_ok (k : tkind) (kids : list nat) : Prop :=
  match k with
  | TNode => kids = []
  | TSeq may => forall l, may l -> incl l kids
  | TPar may => forall l, may l -> incl l kids /\ NoDup l
  | TEng g _ => wf g /\ acyclic g /\ els g = kids
  end.
Record tree_ok (T : tree) : Prop := {
  to_kid : forall g c, In c (t_kids T g) -> t_par T c = g /\ c <> t_root T;
  to_deep : exists depth : nat -> nat, forall g c, In c (t_kids T g) -> depth g < depth c;
  to_kind : forall e, kind_ok (t_kind T e) (t_kids T e);
  to_root : t_kind T (t_root T) <> TNode /\ ~ t_own T (t_root T)
}.
(** [x] is [a] or somewhere in it. *)
Inductive inside (T : tree) (a : nat) : nat -> Prop :=
| in_self : inside T a a
| in_kid p x : inside T a p -> In x (t_kids T p) -> inside T a x.
(** In every execution of group [r], child [a] comes before child [b]: by dependencies, or in the order of a sequence. *)
Definition precedes (T : tree) (r a b : nat) : Prop :=
  match t_kind T r with
  | TEng g _ => path g a b
  | TSeq may => forall l l1 l2, may l -> l = l1 ++ b :: l2 -> In a l1 /\ ~ In a l2 /\ a <> b
  | _ => False
  end.

Definition n_starts (e : nat) (lg : list gevent) : nat := count_occ Nat.eq_dec (starts lg) e.
Definition n_ends (e : nat) (lg : list gevent) : nat := count_occ Nat.eq_dec (map fst (finishes lg)) e.
Definition idle (lg : list gevent) (e : nat) : Prop := n_starts e lg = n_ends e lg.
Definition running (lg : list gevent) (e : nat) : Prop := n_starts e lg = S (n_ends e lg).
(** [q] is what happened since the latest start of [e]. *)
Definition since (e : nat) (lg q : list gevent) : Prop := exists p, lg = p ++ GStart e :: q /\ ~ In (GStart e) q.
Definition elem_of (x : gevent) : nat := match x with GStart e => e | GFinish e _ => e end.
(** The starts and ends of the children of [r]. *)
Definition of_kids (T : tree) (r : nat) (q : list gevent) : list gevent := filter (fun x => memb (elem_of x) (t_kids T r)) q.
(** A complete execution of a group: of a region, every child once; of a sequence, the children in their order; of a parallel multi-condition, the selection. *)
Definition complete (k : tkind) (tr : list gevent) : Prop :=
  match k with
  | TNode => True
  | TSeq may => exists ps, may (map fst ps) /\ tr = pairs ps
  | TPar may => exists l, may l /\ Permutation (starts tr) l /\ Permutation (map fst (finishes tr)) l
  | TEng g _ => all_ran g tr
  end.
(** Errors begin here: in user code. *)
Definition source (T : tree) (z : nat) : Prop := t_kind T z = TNode \/ t_own T z.
