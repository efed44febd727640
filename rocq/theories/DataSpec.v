(** Specification of data under the engines. *)
From Verif Require Export DataModel GraphSpec.
From Coq Require Import ZArith.
Local Open Scope nat_scope.
Local Open Scope list_scope.

(** A program without interruption: what it leaves in memory, and its status. *)
Fixpoint whole (p : prog) (m : mem) : mem * status := match p with Ret r => (m, r) | Read x k => whole (k (m x)) m | Write x v k => whole k (upd m x v) end.
(** The elements of a list one after another: what is in memory at the end, and the status of each. *)
Fixpoint after (body : nat -> prog) (o : list nat) (m : mem) : mem := match o with [] => m | e :: r => after body r (fst (whole (body e) m)) end.
Fixpoint results (body : nat -> prog) (o : list nat) (m : mem) : list (nat * status) := match o with [] => [] | e :: r => (e, snd (whole (body e) m)) :: results body r (fst (whole (body e) m)) end.
(** All places that a program may read are in [R], all that it may write in [W]. *)
Fixpoint within (R W : nat -> Prop) (p : prog) : Prop := match p with Ret _ => True | Read x k => R x /\ forall v, within R W (k v) | Write x _ k => W x /\ within R W k end.
(** One of two elements may write what the other may read or write. *)
Definition conflict (R W : nat -> nat -> Prop) (e f : nat) : Prop := exists x, W e x /\ (R f x \/ W f x) \/ W f x /\ (R e x \/ W e x).
(** Elements that conflict depend on each other, directly or not. *)
Definition race_free (g : graph) (body : nat -> prog) : Prop :=
  exists R W, (forall e, In e (els g) -> within (R e) (W e) (body e)) /\ forall e f, In e (els g) -> In f (els g) -> e <> f -> conflict R W e f -> path g e f \/ path g f e.
