(** Specification of topics, on histories with the newest call first. [q_push] (RingSpec) is a push on a bounded queue. *)
From Verif Require Export MsgModel.
Local Open Scope nat_scope.
Local Open Scope list_scope.

(** The send/receive topic [k]: its type, size and unread messages, oldest first. *)
Fixpoint chan (h : list mop) (k : nat) : option (nat * nat * list nat) :=
  match h with
  | [] => None
  | MCreate k' t size :: r => if Nat.eqb k k' then match chan r k with Some x => Some x | None => Some (t, size, []) end else chan r k
  | MRemove k' :: r => if Nat.eqb k k' then None else chan r k
  | MSend k' v g :: r => if Nat.eqb k k' then match chan r k with Some (t, c, q) => Some (t, c, q_push c v g q) | None => None end else chan r k
  | MRecv k' _ :: r => if Nat.eqb k k' then match chan r k with Some (t, c, q) => Some (t, c, tl q) | None => None end else chan r k
  | MClear :: _ => None
  | _ :: r => chan r k
  end.
(** Sizes are at least two (C61). *)
Definition sized (h : list mop) : Prop := forall o, In o h -> match o with MCreate _ _ size | MBind _ _ size _ => 2 <= size | _ => True end.

(** Connections made since the last clear. *)
Fixpoint nbind (h : list mop) : nat :=
  match h with [] => 0 | MBind _ _ _ _ :: r => S (nbind r) | MClear :: _ => 0 | _ :: r => nbind r end.
(** The connection [c]: its topic, size and unread messages, as long as its topic is not dropped. *)
Fixpoint conn (h : list mop) (c : nat) : option (nat * nat * list nat) :=
  match h with
  | [] => None
  | MBind k _ size _ :: r => if Nat.eqb c (S (nbind r)) then Some (k, size, []) else conn r c
  | MPub k v g :: r => match conn r c with Some (k', n, q) => Some (k', n, if Nat.eqb k k' then q_push n v g q else q) | None => None end
  | MSub c' _ :: r => match conn r c with Some (k', n, q) => Some (k', n, if Nat.eqb c c' then tl q else q) | None => None end
  | MDrop k :: r => match conn r c with Some (k', n, q) => if Nat.eqb k k' then None else Some (k', n, q) | None => None end
  | MClear :: _ => None
  | _ :: r => conn r c
  end.
(** The topic has a connection bound since it was last dropped. *)
Fixpoint known (h : list mop) (k : nat) : bool :=
  match h with
  | [] => false
  | MBind k' _ _ _ :: r => Nat.eqb k k' || known r k
  | MDrop k' :: r => negb (Nat.eqb k k') && known r k
  | MClear :: _ => false
  | _ :: r => known r k
  end.
(** The uses the code supports: no connection is detached from its topic, no connection of a dropped topic is read, nobody
    publishes with WAIT. *)
Fixpoint supported (h : list mop) : Prop :=
  match h with
  | [] => True
  | MDetach k c :: r => (forall n q, conn r c <> Some (k, n, q)) /\ supported r
  | MSub c _ :: r => (conn r c <> None \/ c = 0 \/ nbind r < c) /\ supported r
  | MPub _ _ g :: r => g <> SWait /\ supported r
  | _ :: r => supported r
  end.

(** The answer a call must give after a history. A receive with the wrong type is not refused by the code: [MConfused]. *)
Definition expected (vtype : nat -> nat) (h : list mop) (o : mop) : mans :=
  let get t q := match q with [] => MTimeout | v :: _ => if Nat.eqb (vtype v) t then MGot v else MConfused v end in
  match o with
  | MCreate k t size => match chan h k with None => MOk | Some (t', c, _) => if Nat.eqb t' t && Nat.eqb c size then MOk else MErr end
  | MRemove k => match chan h k with None => MErr | Some _ => MOk end
  | MSend k v g =>
      match chan h k with
      | None => MErr
      | Some (_, c, q) => if length q <? c - 1 then MOk else match g with SWait => MBlocked | _ => MOk end
      end
  | MRecv k t => match chan h k with None => MErr | Some (_, _, q) => get t q end
  | MBind _ _ _ _ => MConn (S (nbind h))
  | MDetach k _ | MPub k _ _ | MDrop k => if known h k then MOk else MErr
  | MSub c t => match conn h c with None => MErr | Some (_, _, q) => get t q end
  | MClear => MOk
  end.
Definition send_recv (o : mop) : Prop := match o with MCreate _ _ _ | MRemove _ | MSend _ _ _ | MRecv _ _ => True | _ => False end.
