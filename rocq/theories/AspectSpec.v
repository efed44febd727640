(** Specification vocabulary for C92. Uses from the model only the vocabulary of calls and responses. *)
From Verif Require Export ElemModel ElemSpec.
Local Open Scope nat_scope.
Local Open Scope list_scope.

(** The calls around init(), run() and destroy(). *)
Definition begin_of (f : fntype) : akind := match f with FInit => ABeginInit | FRun => ABeginRun | FDestroy => ABeginDestroy end.
Definition finish_of (f : fntype) : akind := match f with FInit => AFinishInit | FRun => AFinishRun | FDestroy => AFinishDestroy end.
Definition body_of (f : fntype) : cb := match f with FInit => CInit | FRun => CBody | FDestroy => CDestroy end.
Definition akind_eq (a b : akind) : {a = b} + {a <> b}. Proof. decide equality. Defined.
(** What aspect [i] sees of the calls: true: begin, false: finish. *)
Definition marks (f : fntype) (i : nat) (c : cb) : list bool :=
  match c with
  | CAspect k j _ => if Nat.eqb j i then if akind_eq k (begin_of f) then [true] else if akind_eq k (finish_of f) then [false] else [] else []
  | _ => []
  end.
Definition seen (f : fntype) (i : nat) (l : log) : list bool := flat_map (marks f i) (map fst l).
(** begin, finish, begin, finish, ... [m] times. *)
Fixpoint rounds (m : nat) : list bool := match m with 0 => [] | S k => true :: false :: rounds k end.
(** All that was begun is finished; the last begin is not finished. *)
Definition finished (b : list bool) : Prop := exists m, b = rounds m.
Definition left_open (b : list bool) : Prop := exists m, b = rounds m ++ [true].
(** A call of user code that throws, or a begin that reports an error. *)
Definition bad (e : cb * resp) : Prop :=
  match fst e with CState | CMark _ => False | CAspect k _ _ => call_fate (is_begin k) (snd e) <> Fine | _ => call_fate false (snd e) <> Fine end.
