(** Specification vocabulary for C90. *)
From Verif Require Export RegModel.
Local Open Scope nat_scope.
Local Open Scope list_scope.

(** A dependency that the element may have: an element inside of the same group (or both directly in the pipeline). *)
Definition sibling (s : bst) (e d : nat) : Prop := d <> e /\ e_belong (b_g s d) = e_belong (b_g s e).
(** The null pointer is the smallest element of a std::set of pointers. *)
Definition null_first (c : rcall) : Prop := forall pre post, c_deps c = pre ++ None :: post -> pre = [].
(** The call names a null dependency, or no dependency that the element may have, and the element has no timeout. *)
Definition clean (s : bst) (c : rcall) : Prop :=
  In None (c_deps c) \/ (forall d, In (Some d) (c_deps c) -> ~ sibling s (c_this c) d) /\ b_timeout s (c_this c) = false.

(** The calls of a program that are accepted. *)
Fixpoint accepted_calls (s : bst) (l : list rcall) : list rcall :=
  match l with [] => [] | c :: r => let '(s1, o) := register s c in match o with ROk => c :: accepted_calls s1 r | _ => accepted_calls s1 r end end.
(** Every refused call is clean, at the moment it is made. *)
Fixpoint clean_program (s : bst) (l : list rcall) : Prop :=
  match l with [] => True | c :: r => null_first c /\ (snd (register s c) <> ROk -> clean s c) /\ clean_program (fst (register s c)) r end.
