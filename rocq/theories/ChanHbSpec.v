(** What happens before what around messages, for property C130: a log of what threads did, in the order in which it took effect. *)
From Verif Require Export ListUtil RingModel.
From Coq Require Export List Arith Bool.
Export ListNotations.
Local Open Scope nat_scope.
Local Open Scope list_scope.

Inductive cnote :=
| NUse (o : nat) (w : bool)     (* plain access of the object [o] that messages point to; [w]: a write *)
| NIdx (c : nat)                (* the indices of the buffer of channel [c] are looked at *)
| NPut (c o : nat)              (* a pointer to [o] is stored in channel [c] *)
| NGot (c o : nat)              (* a pointer to [o] is taken from channel [c] *)
| NLost (c o : nat).            (* a pointer to [o], the oldest in channel [c], is given up for a new one *)
Inductive cact := Note (n : cnote) | Rel (c : nat) | Acq (c : nat).   (* unlock, lock of the mutex of channel [c] *)
Definition clog := list (nat * cact).

(** Happens before: the order of each thread, and an unlock before each later lock of the same mutex. *)
Inductive sooner (m : clog) : nat -> nat -> Prop :=
| so_thread i j t x y : i < j -> nth_error m i = Some (t, x) -> nth_error m j = Some (t, y) -> sooner m i j
| so_sync i j t u c : i < j -> nth_error m i = Some (t, Rel c) -> nth_error m j = Some (u, Acq c) -> sooner m i j
| so_trans i k j : sooner m i k -> sooner m k j -> sooner m i j.
Definition noted (m : clog) (i t : nat) (n : cnote) : Prop := nth_error m i = Some (t, Note n).
Definition touches (n : cnote) (c : nat) : Prop := match n with NUse _ _ => False | NIdx d | NPut d _ | NGot d _ | NLost d _ => d = c end.
(** Two accesses of object [o], at least one a write, neither of which happens before the other: a data race. *)
Definition obj_race (m : clog) (o : nat) : Prop :=
  exists i j t u w w', i <> j /\ noted m i t (NUse o w) /\ noted m j u (NUse o w') /\ (w = true \/ w' = true) /\ ~ sooner m i j /\ ~ sooner m j i.
(** The unread pointers of a channel, oldest first. *)
Definition content (c : nat) (m : clog) : list nat :=
  fold_left (fun q e => match snd e with
                        | Note (NPut d o) => if Nat.eqb c d then q ++ [o] else q
                        | Note (NGot d _) | Note (NLost d _) => if Nat.eqb c d then tl q else q
                        | _ => q end) m [].
(** Who may use object [o]: at first [t0]; nobody from when it is put into a channel until it is received; then the receiver. *)
Definition holder (o t0 : nat) (m : clog) : option nat :=
  fold_left (fun h e => match snd e with
                        | Note (NPut _ o') => if Nat.eqb o o' then None else h
                        | Note (NGot _ o') => if Nat.eqb o o' then Some (fst e) else h
                        | _ => h end) m (Some t0).
(** Only the holder uses or sends the object. *)
Definition handed_on (o t0 : nat) (m : clog) : Prop :=
  forall i t n, noted m i t n -> ((exists w, n = NUse o w) \/ (exists c, n = NPut c o)) -> holder o t0 (firstn i m) = Some t.
(** Only [t] writes the object, and only before it sends it; everybody else uses it or sends it on only after having received it. *)
Definition frozen (o t : nat) (m : clog) : Prop :=
  (forall i u, noted m i u (NUse o true) -> u = t /\ forall k c, noted m k t (NPut c o) -> i < k) /\
  (forall i u n, noted m i u n -> ((exists w, n = NUse o w) \/ (exists c, n = NPut c o)) -> u <> t -> exists k c, k < i /\ noted m k u (NGot c o)).
