(** What the relation of an element should be *)
From Verif Require Export RelationModel PlaceSpec.
Local Open Scope nat_scope.
Local Open Scope list_scope.

(** The dependencies that the accepted calls have asked for: [a] comes after [b] if the last accepted call that says something about the two says so *)
Definition says (o : rop) (a b : nat) : option bool :=
  match o with
  | RDepend e on => if Nat.eqb e a && memb b on && negb (Nat.eqb a b) then Some true else None
  | RRemove e d => if Nat.eqb e a && Nat.eqb d b then Some false else None
  | RPlace _ => None
  end.
Fixpoint asked (now : bool) (h : list rop) (l : list rans) (a b : nat) : bool :=
  match h, l with
  | o :: r, ROk :: t => asked (match says o a b with Some x => x | None => now end) r t a b
  | _ :: r, _ :: t => asked now r t a b
  | _, _ => now
  end.
(** No call that adds dependencies was refused *)
Definition none_refused (h : list rop) : Prop := forall i e on, nth_error h i = Some (RDepend e on) -> nth_error (rel_answers h) i <> Some RRefused.
(** The calls that make, group and register *)
Definition places (h : list rop) : list lop := flat_map (fun o => match o with RPlace p => [p] | _ => [] end) h.
