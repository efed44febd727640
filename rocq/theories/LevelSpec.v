(** What C101 talks about: a program of registration calls and the calls an init or destroy makes. *)
From Verif Require Import LevelModel.
From Coq Require Import ZArith.
Local Open Scope nat_scope.
Local Open Scope list_scope.

(** The level an element has at the end: the last one set, 0 if none was. *)
Definition level_of (p : list lop) (e : nat) : Z :=
  fold_left (fun v o => match o with LLevel x z => if x =? e then z else v | _ => v end) p 0%Z.
(** [a] is [x] or lies, at any depth, in the group [x]. *)
Inductive within (p : list lop) (a : nat) : nat -> Prop :=
| wi_self : within p a a
| wi_in k g cs c : In (LGroup k g cs) p -> In c cs -> within p a c -> within p a g.
(** [x] and [y] stand side by side in the pipeline, or in a region of it. *)
Definition side_by_side (p : list lop) (x y : nat) : Prop :=
  (In (LRegister x) p /\ In (LRegister y) p) \/
  (exists r cs top, In (LGroup true r cs) p /\ In x cs /\ In y cs /\ In (LRegister top) p /\ within p r top).
(** The levels are set in time: none is set for an element already registered or already put into a region. *)
Definition in_time (p : list lop) : Prop :=
  forall a e z b, p = a ++ LLevel e z :: b -> ~ In (LRegister e) a /\ forall g cs, In (LGroup true g cs) a -> ~ In e cs.
