(** What happens before what around the threads of a pool, for property C127: a log of what the threads did, in the order in which it took effect. *)
From Verif Require Import ListUtil.
Import ListNotations.

(** Who acts: a thread of the program that uses the pool (the monitor thread of the pool counts as one), or a thread of the pool. *)
Inductive who := User (u : nat) | Pool (t : nat).

(** What threads synchronise on. *)
Inductive sloc :=
| LNew (t : nat)        (* the construction of the std::thread of pool thread [t] *)
| LEnd (t : nat)        (* the end of that std::thread, awaited by join *)
| LMtx (t : nat)        (* the mutex of pool thread [t] *)
| LList                 (* the mutex of the list of secondary threads *)
| LQueue (q : nat)      (* the mutex of task queue [q] *)
| LTell (u : nat).      (* means of the program itself by which user thread [u] tells others *)

(** Where the flag that stops a pool thread is accessed. *)
Inductive place :=
| AtBirth               (* when the thread object is made *)
| InLoop                (* by the pool thread, between two tasks *)
| InWait                (* by the pool thread, when it is about to sleep or woken *)
| InList                (* by those who look through the list of secondary threads *)
| AtErase               (* by those who take a secondary thread off the list *)
| InDestroy.            (* by destroy *)

Inductive snote :=
| NCommit (k : nat)                   (* task [k] is handed to the pool *)
| NBegin (k : nat) | NEnd (k : nat)   (* task [k] begins, has ended *)
| NJoined (t : nat)                   (* pool thread [t] has been joined *)
| NDestroyed                          (* destroy returns *)
| NGet (t : nat) (p : place)          (* plain (not atomic) read of the flag of thread [t] *)
| NSet (t : nat) (p : place).         (* plain write *)

Inductive sact := SNote (n : snote) | SRel (l : sloc) | SAcq (l : sloc).
Definition slog := list (who * sact).

(** Unlocking a mutex synchronises with later locking, constructing a thread with its first step, its last step with the return of join. *)
Inductive sooner (m : slog) : nat -> nat -> Prop :=
| so_thread i j a x y : i < j -> nth_error m i = Some (a, x) -> nth_error m j = Some (a, y) -> sooner m i j
| so_sync i j a b l : i < j -> nth_error m i = Some (a, SRel l) -> nth_error m j = Some (b, SAcq l) -> sooner m i j
| so_trans i k j : sooner m i k -> sooner m k j -> sooner m i j.

Definition noted (m : slog) (i : nat) (a : who) (n : snote) : Prop := nth_error m i = Some (a, SNote n).
(** [a] accesses the flag of thread [t] at position [i]. *)
Definition flag_access (m : slog) (i : nat) (a : who) (t : nat) (p : place) : Prop := noted m i a (NGet t p) \/ noted m i a (NSet t p).
(** Two accesses of one flag, one of them a write, neither of which happens before the other. *)
Definition flag_race (m : slog) (i j : nat) (a b : who) (t : nat) (p q : place) : Prop :=
  i <> j /\ flag_access m i a t p /\ flag_access m j b t q /\ (noted m i a (NSet t p) \/ noted m j b (NSet t q)) /\
  ~ sooner m i j /\ ~ sooner m j i.
