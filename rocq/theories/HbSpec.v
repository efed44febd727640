(** The part of the C++ memory model that the engines rely on: what happens before what in a log of what the threads did. The log is in the order in
    which the actions took effect. *)
From Verif Require Import GraphModel.
Local Open Scope nat_scope.

(** What threads synchronise on. *)
Inductive hloc :=
| HLeft (e : nat)       (* the atomic counter left_depend_ of element [e] *)
| HFin                  (* the atomic counter of finished ends *)
| HMtx                  (* the mutex of the condition variable the caller waits on *)
| HStat                 (* the lock around the writes of the shared status *)
| HTask (k : nat)       (* the slot of the queue through which task [k] is handed to a worker *)
| HFut (k : nat).       (* the state that the promise of task [k] shares with its future *)

(** What the property speaks about: calls and returns, elements starting and ending, plain (not atomic) reads and writes of the shared status. *)
Inductive hnote :=
| NCall | NRet (r : status) | NStart (e : nat) | NFinish (e : nat) (r : status) | NRead | NWrite.

Inductive hact :=
| HNote (n : hnote)
| HStore (l : hloc)     (* a write with release order that is not a read-modify-write *)
| HLoad (l : hloc)      (* a read with acquire order *)
| HRmw (l : hloc)       (* a read-modify-write with acquire and release order *)
| HRel (l : hloc)       (* a read-modify-write with release order only *)
| HLock (l : hloc) | HUnlock (l : hloc).

(** Who did it, and what. *)
Definition hlog := list (nat * hact).

Definition releases (a : hact) (l : hloc) : Prop := a = HStore l \/ a = HRmw l \/ a = HRel l \/ a = HUnlock l.
Definition acquires (a : hact) (l : hloc) : Prop := a = HLoad l \/ a = HRmw l \/ a = HLock l.

(** [happens_before m i j]: the action at position [i] happens before the one at [j]. Actions of one thread are ordered. A release synchronises with a later acquire of the
    same object if no plain store came in between (read-modify-writes keep the chain). And nothing else, except what follows by transitivity. *)
Inductive happens_before (m : hlog) : nat -> nat -> Prop :=
| hb_thread i j t a b : i < j -> nth_error m i = Some (t, a) -> nth_error m j = Some (t, b) -> happens_before m i j
| hb_sync i j t u a b l : i < j -> nth_error m i = Some (t, a) -> nth_error m j = Some (u, b) -> releases a l -> acquires b l ->
    (forall k v, i < k -> k < j -> nth_error m k <> Some (v, HStore l)) -> happens_before m i j
| hb_trans i k j : happens_before m i k -> happens_before m k j -> happens_before m i j.

(** The action at position [i] is [n]. *)
Definition at_ (m : hlog) (i : nat) (n : hnote) : Prop := exists t, nth_error m i = Some (t, HNote n).
(** A read or write of the shared status. *)
Definition status_access (m : hlog) (i : nat) : Prop := at_ m i NRead \/ at_ m i NWrite.
(** Two accesses of which one is a write, and neither happens before the other: undefined behaviour in C++. *)
Definition data_race (m : hlog) (i j : nat) : Prop :=
  i <> j /\ status_access m i /\ status_access m j /\ (at_ m i NWrite \/ at_ m j NWrite) /\
  ~ happens_before m i j /\ ~ happens_before m j i.
