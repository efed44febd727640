(** Specification vocabulary for C88: memory owned by pipelines. *)
From Verif Require Export OwnModel.
Local Open Scope nat_scope.
Local Open Scope list_scope.

(** Element [e] was allocated by a call on pipeline [p]. *)
Definition made_by (s : ost) (e p : nat) : Prop := In (e, p) (o_made s).
(** Number of times an element / a pipeline was deleted. *)
Definition e_deletions (s : ost) (e : nat) : nat := count_occ Nat.eq_dec (o_edead s) e.
Definition p_deletions (s : ost) (p : nat) : nat := count_occ Nat.eq_dec (o_pdead s) p.

(** A call of a tidy program: it is made on a pipeline that exists and was not removed, and the elements it names were made by this pipeline. *)
Definition tidy_call (s : ost) (c : ocall) : Prop :=
  (forall p, on_pipe c = Some p \/ c = ORemove (Some p) -> p < o_np s /\ p_deletions s p = 0) /\
  (forall p e, on_pipe c = Some p -> In e (names c) -> made_by s e p).
(** Every call of the program is tidy. *)
Fixpoint tidy (s : ost) (cs : list ocall) : Prop :=
  match cs with [] => True | c :: r => tidy_call s c /\ forall x s', ostep s c = ORet x s' -> tidy s' r end.

(** In the calls [cs] with results [xs], the call [c] was made and returned OK with element [e]. *)
Definition accepted (cs : list ocall) (xs : list ores) (c : ocall) (e : nat) : Prop := In (c, OOk (Some e)) (combine cs xs).
(** The calls that register an element (the others only create one). *)
Definition registers (c : ocall) : bool := match c with ORegNew _ _ _ | ORegGroup _ _ _ _ | ORegOld _ _ _ _ => true | _ => false end.
(** [e] is [g] or was given, at some depth, as an element of the group [g]. *)
Inductive inside (cs : list ocall) (xs : list ores) (g : nat) : nat -> Prop :=
| in_self : inside cs xs g g
| in_kid : forall p ks d h e, inside cs xs g h -> accepted cs xs (OMkGroup p ks d) h -> In (Some e) ks -> inside cs xs g e.
