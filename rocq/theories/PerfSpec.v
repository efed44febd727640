(** Vocabulary for what perf reports, apart from how it computes it. *)
From Verif Require Export PerfModel GraphSpec.
Local Open Scope nat_scope.
Local Open Scope list_scope.

(** What happened to element [e]. *)
Definition of_el (e : nat) (evs : list (nat * pev)) : list pev := map snd (filter (fun x => Nat.eqb (fst x) e) evs).

(** The iterations of one element: each is a begin and the finish that follows it; a begin with no finish (an iteration that was cut short) is not one. *)
Inductive iterations : list pev -> list (Z * Z) -> Prop :=
| it_nil : iterations [] []
| it_one b f l its : iterations l its -> iterations (PBegin b :: PFinish f :: l) ((b, f) :: its)
| it_cut b l its : iterations l its -> iterations (PBegin b :: l) its.

Definition duration (x : Z * Z) : Z := (snd x - fst x)%Z.
Definition total {A} (f : A -> Z) (l : list A) : Z := fold_right (fun x c => (f x + c)%Z) 0%Z l.
(** The first begin and the last finish. *)
Fixpoint first_begin (l : list pev) : option Z := match l with [] => None | PBegin b :: _ => Some b | _ :: r => first_begin r end.
Fixpoint last_finish (l : list pev) : option Z := match l with [] => None | PFinish f :: r => match last_finish r with None => Some f | x => x end | _ :: r => last_finish r end.

(** Only the user's aspects are there. *)
Definition only_user (s : pst) : Prop := forall e a, In a (p_asp s e) -> exists n, a = AUser n.
(** The clock does not run backwards, and the run starts after [t0]. *)
Definition clock_ok (t0 : Z) (its : list (Z * Z)) : Prop := forall x, In x its -> (t0 <= fst x <= snd x)%Z.
(** No body adds an aspect. *)
Definition no_add (evs : list (nat * pev)) : Prop := forall e n, ~ In (e, PAdd n) evs.
