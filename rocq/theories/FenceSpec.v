(** Vocabulary for fences. *)
From Verif Require Export FenceModel TimeoutSpec.
Local Open Scope nat_scope.
Local Open Scope list_scope.

(** The latest body of [e] in a list of events, newest first. *)
Fixpoint last_body (e : nat) (l : list tev) : option nat :=
  match l with
  | [] => None
  | TBody a j :: r => if Nat.eqb a e then Some j else last_body e r
  | _ :: r => last_body e r
  end.
(** The latest body of [e] in the current run (or, between runs, the last one) is [j]. *)
Definition latest (s : fst_) (e j : nat) : Prop := last_body e (t_this (t_log (f_t s))) = Some j.
Definition ended (s : fst_) (j : nat) (r : outcome) : Prop := t_job (f_t s) j = JDone r.
(** Every fence waits for elements that it comes after, and has a timeout set for each of them (GFence::checkSuitable). *)
Definition fences_after (n nf : nat) (st : nat -> strategy) (wt af : nat -> list nat) : Prop :=
  forall f, f < nf -> NoDup (wt f) /\ (forall e, In e (wt f) -> In e (af f) /\ st e <> Sync) /\ (forall e, In e (af f) -> e < n).
(** No two fences wait for the same element. *)
Definition one_fence (nf : nat) (wt : nat -> list nat) : Prop :=
  forall f g e, f < nf -> g < nf -> In e (wt f) -> In e (wt g) -> f = g.
(** Two threads use the async_result_ of one element at the same time. *)
Definition race (s : fst_) : Prop := exists e w w', w <> w' /\ uses s e w /\ uses s e w'.
