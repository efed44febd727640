(** Vocabulary for mutable groups: what a list of reshape operations asks for. Nothing here refers to a state of the group. *)
From Verif Require Export MutModel GraphSpec.
Local Open Scope nat_scope.

(** [d] was linked before [e]. *)
Definition linked (ops : list rop) (d e : nat) : Prop := d <> e /\ In (RLink d (Some e)) ops.
(** The last operation about the visibility of [e] decides; elements not mentioned stay hidden. *)
Definition shown (ops : list rop) (e : nat) : bool :=
  fold_left (fun v o => match o with
    | RLink a (Some b) => Nat.eqb a e || Nat.eqb b e || v
    | RShow a x => if Nat.eqb a e then x else v
    | _ => v end) ops false.
(** The last accepted loop request counts; 1 when there is none. An element with a timeout accepts 1 only. *)
Definition times (tmo : bool) (ops : list rop) (e : nat) : nat :=
  fold_left (fun n o => match o with
    | RTimes a k => if Nat.eqb a e && negb (tmo && negb (Nat.eqb k 1)) then k else n
    | _ => n end) ops 1.
(** The operations name children of the group only, and no null pointer. *)
Definition rop_on (ks : list nat) (o : rop) : Prop :=
  match o with
  | RLink a b => In a ks /\ exists x, b = Some x /\ In x ks
  | RShow a _ => In a ks
  | RTimes a _ => In a ks
  end.
(** [ks] are the children of the mutable group [m]. *)
Definition children (s : mst) (m : nat) (ks : list nat) : Prop :=
  NoDup ks /\ forall e, In e ks -> e_belong (m_g s e) = Some m /\ e_mut (m_g s e) = true.
(** The graph that the operations ask for has no cycle. *)
Definition asks_acyclic (ops : list rop) : Prop := forall e, ~ clos_trans nat (linked ops) e e.
(** The bodies that run when none fails. *)
Definition wanted (s : mst) (ops : list rop) (e : nat) : nat := if shown ops e then times (m_tmo s e) ops e else 0.
