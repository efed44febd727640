(** Specification for the places of elements. *)
From Verif Require Export PlaceModel.
Local Open Scope nat_scope.
Local Open Scope list_scope.

(** The C++ interface only. *)
Definition cpp (h : list lop) : Prop := forall o, In o h -> match o with LAddPy _ _ | LRegPy _ => False | _ => True end.
(** To whom elements were given by the accepted calls: put into a group, or registered. [n]: the number of the first call. *)
Definition gives (n : nat) (o : lop) : list nat :=
  match o with
  | LNode => []
  | LGroup _ els | LAddPy _ els => els
  | LRegNew => [n]
  | LRegType e | LRegDirect e | LRegPy e => [e]
  end.
Fixpoint given (n : nat) (h : list lop) (a : list lans) : list nat :=
  match h, a with
  | o :: r, LOk :: b => gives n o ++ given (S n) r b
  | _ :: r, _ :: b => given (S n) r b
  | _, _ => []
  end.
(** Every element was given away at most once by accepted calls. *)
Definition once (h : list lop) : Prop := NoDup (given 0 h (l_answers h)).
(** [e], its group, the group of that, and so on. *)
Inductive upwards (s : lst) : nat -> list nat -> Prop :=
| up_top e : l_belong s e = None -> upwards s e [e]
| up_step e g l : l_belong s e = Some g -> upwards s g l -> upwards s e (e :: l).
(** The elements registered at the pipeline by accepted calls, in this order. *)
Definition registers (n : nat) (o : lop) : list nat :=
  match o with LRegNew => [n] | LRegType e | LRegDirect e | LRegPy e => [e] | _ => [] end.
Fixpoint registered (n : nat) (h : list lop) (a : list lans) : list nat :=
  match h, a with
  | o :: r, LOk :: b => registers n o ++ registered (S n) r b
  | _ :: r, _ :: b => registered (S n) r b
  | _, _ => []
  end.
Definition roots_of (h : list lop) : list nat := registered 0 h (l_answers h).
(** [g] was made as a group of [els]. *)
Definition made_of (h : list lop) (g : nat) (els : list nat) : Prop :=
  exists r, nth_error h g = Some (LGroup r els) /\ nth_error (l_answers h) g = Some LOk.
(** [e] is inside of [g], at any depth. *)
Inductive inside (h : list lop) : nat -> nat -> Prop :=
| in_self e : inside h e e
| in_group e g els t : made_of h g els -> In e els -> inside h g t -> inside h e t.
