(** Specification vocabulary for timeouts. Logs are newest first. *)
From Verif Require Export TimeoutModel.
Local Open Scope nat_scope.
Local Open Scope list_scope.

(** What happened since the run began *)
Fixpoint t_this (h : list tev) : list tev := match h with [] => [] | TBegin :: _ => [] | x :: r => x :: t_this r end.
(** No run has ended by an exception. *)
Definition no_throw (h : list tev) : Prop := ~ In (TEnd EndThrow) h.
(** isHold asked for no repetition. *)
Definition no_again (h : list tev) : Prop := forall e, ~ In (TAgain e) h.
(** The groups around elements below [n], which are those of the pipeline itself *)
Definition top_level (n : nat) (up : nat -> list nat) : Prop := forall e, e < n -> up e = [].
(** Element [e] has been found late, its strategy lets the pipeline go on, and it has not been reset since. *)
Fixpoint late_now (st : nat -> strategy) (e : nat) (h : list tev) : bool :=
  match h with
  | [] => false
  | TLate e' _ :: r => if Nat.eqb e' e && negb (strategy_eqb (st e) AsError) then true else late_now st e r
  | TReset e' :: r => if Nat.eqb e' e then false else late_now st e r
  | _ :: r => late_now st e r
  end.
Definition is_body (e : nat) (x : tev) : bool := match x with TBody e' _ => Nat.eqb e' e | _ => false end.
