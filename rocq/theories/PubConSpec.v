(** Specification for concurrent publishing, in terms of the trace: calls, returns, binds, pushes and pops. *)
From Verif Require Export PubConModel.
From Coq Require Import Permutation.
Local Open Scope nat_scope.
Local Open Scope list_scope.

Definition mine (t : nat) (e : bev) : bool := match e with ECall u _ | ERet u _ _ | EBind u _ _ _ | EPush u _ _ _ | EPop u _ _ => Nat.eqb u t end.
(** Connection [c] was bound to topic [k]. *)
Definition bound (tr : list bev) (k c : nat) : Prop := exists t n, In (EBind t k c n) tr.
(** The unread values of a connection, oldest first, and its size; the trace newest first. *)
Fixpoint inbox (h : list bev) (c : nat) : option (nat * list nat) :=
  match h with
  | [] => None
  | EBind _ _ c' n :: r => if Nat.eqb c c' then Some (n, []) else inbox r c
  | EPush _ c' v g :: r => if Nat.eqb c c' then match inbox r c with Some (n, q) => Some (n, q_push n v g q) | None => None end else inbox r c
  | EPop _ c' _ :: r => if Nat.eqb c c' then match inbox r c with Some (n, q) => Some (n, tl q) | None => None end else inbox r c
  | _ :: r => inbox r c
  end.
(** Every pop takes the oldest unread value of its connection; a push with WAIT finds room; a connection is bound once. *)
Definition queued (tr : list bev) : Prop :=
  forall a e b, tr = a ++ e :: b ->
    match e with
    | EPop _ c v => exists n q, inbox (rev a) c = Some (n, v :: q)
    | EPush _ c v g => exists n q, inbox (rev a) c = Some (n, q) /\ (g = SWait -> length q < n - 1)
    | EBind _ _ c _ => inbox (rev a) c = None
    | _ => True
    end.
(** What call [o] of thread [t], answered with [r], did; [a]: the trace before the call; [b]: the trace from the call to now (or
    to the return).
    A publication: one push to each of the connections [l], no connection twice; all that were bound before the call are
    among them, and all of them are bound. It is refused only if nothing was bound before the call. *)
Definition call_did (t : nat) (o : bop) (r : bans) (a b : list bev) : Prop :=
  match o with
  | OPub k v g =>
      (r = BOk /\ exists l, filter (mine t) b = map (fun c => EPush t c v g) l /\ NoDup l /\ (forall c, bound a k c -> In c l) /\ (forall c, In c l -> bound (a ++ b) k c)) \/
      (r = BErr /\ filter (mine t) b = [] /\ forall c, ~ bound a k c)
  | OSub c =>
      (exists v, r = BGot v /\ filter (mine t) b = [EPop t c v]) \/ (r = BTimeout /\ filter (mine t) b = []) \/
      (r = BErr /\ filter (mine t) b = [] /\ forall k, ~ bound a k c)
  | OBind k n _ => exists c, r = BConn c /\ filter (mine t) b = [EBind t k c n] /\ forall k', ~ bound a k' c
  end.
Definition calls_none (t : nat) (b : list bev) : Prop := forall o, ~ In (ECall t o) b.
(** Every returned call did what it must. *)
Definition answered (tr : list bev) : Prop :=
  forall a t o b r d, tr = a ++ ECall t o :: b ++ ERet t o r :: d -> calls_none t b -> call_did t o r a b.
Definition quiet (s : bst) : Prop := bs_lock s = None /\ forall t, bs_pc s t = BIdle.
Definition calls (ls : list blabel) (o : bop) : Prop := exists t, In (LCall t o) ls.
(** Messages hold at least one value (C61). *)
Definition roomy (ls : list blabel) : Prop := forall o, calls ls o -> match o with OBind _ n _ => 2 <= n | _ => True end.
(** The values pushed to and taken from a connection, in order. *)
Definition pushed (c : nat) (tr : list bev) : list nat := flat_map (fun e => match e with EPush _ c' v _ => if Nat.eqb c c' then [v] else [] | _ => [] end) tr.
Definition popped (c : nat) (tr : list bev) : list nat := flat_map (fun e => match e with EPop _ c' v => if Nat.eqb c c' then [v] else [] | _ => [] end) tr.
(** Thread [t] waits for something only others can do: it publishes with WAIT and its next connection is full, or it waits for a
    value and its connection is empty. *)
Definition waits (s : bst) (t : nat) : Prop :=
  (exists k v c rest n q, bs_pc s t = BLoop k v SWait (c :: rest) /\ inbox (rev (bs_tr s)) c = Some (n, q) /\ n - 1 <= length q) \/
  (exists c n, bs_pc s t = BPop c /\ inbox (rev (bs_tr s)) c = Some (n, [])).
Definition reached (N : nat) (s : bst) : Prop := exists ls, roomy ls /\ brun N bs_new ls = BRun s.
(** [l] is [m] with some values left out. *)
Inductive subseq : list nat -> list nat -> Prop :=
| sq_nil : subseq [] []
| sq_take x l m : subseq l m -> subseq (x :: l) (x :: m)
| sq_skip x l m : subseq l m -> subseq l (x :: m).
(** The binds among the calls [ls] are apart from the rest: they are to topics known before, to which nobody publishes at the
    same time, and nobody receives. *)
Definition apart (tr : list bev) (ls : list blabel) : Prop :=
  forall k n p, calls ls (OBind k n p) -> (exists c, bound tr k c) /\ (forall c, ~ calls ls (OSub c)) /\ (forall v g, ~ calls ls (OPub k v g)).
