(** Specification for concurrent use of topics. Histories of effects are read as in MsgSpec (newest first). *)
From Verif Require Export MsgConModel MsgSpec.
Local Open Scope nat_scope.
Local Open Scope list_scope.

(** What thread [t] sees: it calls, the call takes effect once, it returns with the answer of that moment; and so on. *)
Definition mine (t : nat) (e : mev) : bool := match e with ECall u _ | EAcc u _ _ | ERet u _ _ => Nat.eqb u t end.
Inductive in_turn (t : nat) : list mev -> Prop :=
| it_nil : in_turn t []
| it_call o : in_turn t [ECall t o]
| it_acc o a : in_turn t [ECall t o; EAcc t o a]
| it_ret o a r : in_turn t r -> in_turn t (ECall t o :: EAcc t o a :: ERet t o a :: r).
(** The calls that took effect, newest first. *)
Definition past (tr : list mev) : list mop := rev (c_ops tr).
(** Every effect is that of the same calls made one after the other, each topic being a bounded queue ([expected], [chan]). *)
Definition atomic (vtype : nat -> nat) (tr : list mev) : Prop :=
  (forall t, in_turn t (filter (mine t) tr)) /\
  forall a t o v b, accs tr = a ++ (t, o, v) :: b -> v = expected vtype (rev (map (fun x => snd (fst x)) a)) o.
Definition quiet (s : tst) : Prop := ts_lock s = None /\ forall t, ts_pc s t = Idle.
Definition calls (ls : list tlabel) (o : mop) : Prop := exists t, In (LCall t o) ls.
(** Topics are made with a size of at least two (C61). *)
Definition roomy_op (o : mop) : Prop := match o with MCreate _ _ n => 2 <= n | _ => True end.
Definition roomy (ls : list tlabel) : Prop := forall o, calls ls o -> roomy_op o.
(** Calls on topics that were made before: send, receive, and make a topic again. [h]: the calls that took effect before. *)
Definition prepared (h : list mop) (o : mop) : Prop :=
  match o with MSend _ _ _ | MRecv _ _ => True | MCreate k _ _ => chan h k <> None | _ => False end.
(** The values handed out by receives from topic [k], and those put in by waiting sends, in order. *)
Definition handed_out (k : nat) (l : list (nat * mop * mans)) : list nat :=
  flat_map (fun x => match x with (_, MRecv k' _, MGot v) | (_, MRecv k' _, MConfused v) => if Nat.eqb k k' then [v] else [] | _ => [] end) l.
Definition put_in (k : nat) (l : list (nat * mop * mans)) : list nat :=
  flat_map (fun x => match x with (_, MSend k' v _, MOk) => if Nat.eqb k k' then [v] else [] | _ => [] end) l.
(** Thread [t] waits for something that only others can do: it receives from an empty topic, or sends to a full one. *)
Definition waits (s : tst) (t : nat) : Prop :=
  exists k n, (exists ty ty', ts_pc s t = Use (MRecv k ty) n /\ exists c, chan (past (ts_tr s)) k = Some (ty', c, [])) \/
              (exists v ty' c q, ts_pc s t = Use (MSend k v SWait) n /\ chan (past (ts_tr s)) k = Some (ty', c, q) /\ c - 1 <= length q).
