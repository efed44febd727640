(** What the user thread of a pool and its monitor thread do to what they share, for property C131. *)
From Coq Require Export List Arith Bool.
From Verif Require Export ListUtil.
Export ListNotations.
Local Open Scope nat_scope.
Local Open Scope list_scope.

Inductive wwho := User | Monitor.
Inductive flag := FEnable | FInit.       (* config_.monitor_enable_, is_init_: plain bools *)
Inductive wact := WNote (f : flag) (w : bool) | WRel (n : bool) | WAcq (n : bool).   (* access of a flag ([w]: a write); start (true) and end (false) of the monitor *)
Definition wlog := list (wwho * wact).
(** Happens before: the order of each thread; the construction of the monitor thread before its steps; its end before the return of join. *)
Inductive before (m : wlog) : nat -> nat -> Prop :=
| be_thread i j a x y : i < j -> nth_error m i = Some (a, x) -> nth_error m j = Some (a, y) -> before m i j
| be_sync i j a b n : i < j -> nth_error m i = Some (a, WRel n) -> nth_error m j = Some (b, WAcq n) -> before m i j
| be_trans i k j : before m i k -> before m k j -> before m i j.
Definition flag_race (m : wlog) (f : flag) : Prop :=
  exists i j a b w w', i <> j /\ nth_error m i = Some (a, WNote f w) /\ nth_error m j = Some (b, WNote f w') /\ (w = true \/ w' = true) /\ ~ before m i j /\ ~ before m j i.
