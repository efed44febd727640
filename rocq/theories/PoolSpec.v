(** What the properties of the thread pool say, apart from the model. *)
From Verif Require Import PoolModel.
Local Open Scope list_scope.

(** The tasks handed to the pool by a history. *)
Definition given1 (l : plabel) : list nat :=
  match l with LSubmit t _ _ _ => [t] | LTid _ t _ _ _ => [t] | LPrio _ t _ _ => [t] | _ => [] end.
Definition given (ls : list plabel) : list nat := flat_map given1 ls.
(** The tasks in the hands of a thread: obtained from a queue, about to be run *)
Definition p_held (x : pth) : list nat := match x with PRun l => l | _ => [] end.
Definition s_held (x : sth) : list nat := match x with SRun l => l | _ => [] end.
Definition k_held (k : pcall) : list nat := match k_task k with Some (_, (_, t)) => [t] | None => [] end.
Definition in_threads (c : cfg) (s : pool) : list nat :=
  flat_map (fun i => p_held (p_pt s i)) (seq 0 (c_def c)) ++ flat_map (fun j => s_held (p_st s j)) (seq 0 (p_nsec s)).
Definition in_queues (c : cfg) (s : pool) : list nat := flat_map (p_wsq s) (seq 0 (c_def c)) ++ p_q s ++ map (fun e => snd (snd e)) (p_prio s).
(** Tasks whose commitWithPriority has not returned *)
Definition in_calls (s : pool) : list nat := flat_map k_held (p_call s).

(** The queues a thread takes tasks from *)
Definition prim_polls (c : cfg) (i : nat) (q : queue) : Prop :=
  match q with QOwn j => j = i \/ In j (targets c i) | QPool => True | QPrio => False end.
Definition sec_polls (q : queue) : Prop := match q with QOwn _ => False | QPool => True | QPrio => True end.
(** A thread that has not been told to end *)
Definition prim_alive (c : cfg) (s : pool) (i : nat) : Prop := i < c_def c /\ p_init s = true /\ p_stop s i = false.
Definition sec_alive (s : pool) (j : nat) : Prop := In j (p_sec s) /\ p_sstop s j = false.
Definition content (s : pool) (q : queue) : list nat :=
  match q with QOwn i => p_wsq s i | QPool => p_q s | QPrio => map (fun e => snd (snd e)) (p_prio s) end.
(** A history that gives no further tasks, releases none from a call in progress, and neither ends nor stops the pool *)
Definition quiet (l : plabel) : bool := match l with LPrim _ _ | LSec _ _ | LStopSec _ | LErase _ => true | _ => false end.
(** Thread [i] is never held up: its attempts to get a mutex succeed. *)
Definition prim_lucky (i : nat) (l : plabel) : bool := match l with LPrim k ok => implb (Nat.eqb k i) ok | _ => true end.
Definition sec_lucky (j : nat) (l : plabel) : bool :=
  match l with LSec k ok => implb (Nat.eqb k j) ok | LStopSec k => negb (Nat.eqb k j) | _ => true end.
(** The number of rounds a thread begins in a history *)
Definition prim_starts (i : nat) (s : pool) (l : plabel) : bool :=
  match l with LPrim k _ => Nat.eqb k i && match p_pt s i with PLoop => negb (p_stop s i) | _ => false end | _ => false end.
Definition sec_starts (j : nat) (s : pool) (l : plabel) : bool :=
  match l with LSec k _ => Nat.eqb k j && match p_st s j with SLoop => negb (p_sstop s j) | _ => false end | _ => false end.
Fixpoint rounds (f : pool -> plabel -> bool) (c : cfg) (s : pool) (ls : list plabel) : nat :=
  match ls with
  | [] => 0
  | l :: r => match pool_step c s l with Next s' => b2n (f s l) + rounds f c s' r | _ => 0 end
  end.
(** Batch sizes with which batches are not always empty *)
Definition batches_ok (c : cfg) : Prop := c_batch c = true -> (c_local c <> 0 /\ c_steal c <> 0 /\ 0 < c_pool c)%Z.
(** The caller inside a batch of executeWithTid calls for queue [i], from the calls made (newest first) *)
Fixpoint batcher (c : cfg) (h : list plabel) (i : nat) : option nat :=
  match h with
  | [] => None
  | LTid p _ tid en lk :: r => if (tid =? Z.of_nat i)%Z && (i <? c_def c) then (if en then if lk then Some p else None else batcher c r i) else batcher c r i
  | _ :: r => batcher c r i
  end.
(** Tasks given by one call to the queue of long tasks *)
Definition slow (l : plabel) : bool := match l with LSubmit _ idx _ _ => (idx =? -101)%Z | LPrio _ _ _ _ => true | _ => false end.
(** No two calls that may create threads overlap. *)
Fixpoint serial (busy : bool) (ls : list plabel) : Prop :=
  match ls with
  | [] => True
  | LMore _ _ :: r | LPrio _ _ _ _ :: r => busy = false /\ serial true r
  | LInit :: r => busy = false /\ serial busy r
  | LCreate _ :: r => serial false r
  | _ :: r => serial busy r
  end.
