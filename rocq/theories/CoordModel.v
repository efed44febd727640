(** Adding and releasing secondary threads while tasks run: GCoordinator (src/GraphCtrl/GraphElement/GAdapter/GCoordinator/GCoordinator.inl 24-33), UThreadPool
    createSecondaryThread, releaseSecondaryThread and the monitor (src/UtilsCtrl/ThreadPool/UThreadPool.cpp 186-206, 227-272), reset and loop of a thread
    (Thread/UThreadBase.h 104-117, 152-164, Thread/UThreadSecondary.h 110-118).

    One label is one action of one thread. Simplified: what tasks do apart from these calls; starting a thread does not fail; destroy of the pool is in
    PoolModel; done_ is read and written atomically (in the code it is a plain bool: C127). *)
From Verif Require Export ListUtil.
From Coq Require Export ZArith.
Local Open Scope nat_scope.
Local Open Scope list_scope.

(** Who makes a call: a thread of the user or a primary thread, the monitor among them, or the secondary thread [j] from inside of a task. *)
Inductive actor := AMain (u : nat) | ASec (j : nat).
Definition actor_eq (a b : actor) : {a = b} + {a <> b}. Proof. decide equality; apply Nat.eq_dec. Defined.
(** createSecondaryThread(n), releaseSecondaryThread(n), the sweep of the monitor (UThreadPool.cpp 266-270). *)
Inductive cop := OCreate (n : Z) | ORelease (n : Z) | OSweep.
(** GCoordinator<SIZE>::run, GCoordinator.inl 24-33. *)
Definition coordinator (size : Z) : cop := if (0 <=? size)%Z then OCreate size else ORelease (-1 * size).

(** Where an actor is in a call. [todo]: the threads that the loop has not visited; [l0]: (not in the code, for the log) the list when the mutex was taken. *)
Inductive cpc :=
| QNone
| QSize (n : Z)                                             (* create: about to read the size of the list, 230 *)
| QCLock (n real : Z)                                       (* about to lock, 233 *)
| QMake (n : Z) (k : nat) (l0 : list nat)                   (* k threads are still to be made, UThreadPool.cpp 234-239 *)
| QRLock (n : Z)                                            (* release: about to lock, 190 *)
| QSweep (n : Z) (todo l0 : list nat)                       (* erase those with done_ == false, UThreadPool.cpp 191-193 *)
| QJoin (n : Z) (j : nat) (todo l0 : list nat)              (* in the destructor of the erased thread j: about to join *)
| QCheck (n : Z) (l0 : list nat)                            (* 195 *)
| QMark (n : Z) (todo marked l0 : list nat)                 (* UThreadPool.cpp 200-204 *)
| QFLock                                                    (* monitor: about to lock, 266 *)
| QFreeze (todo l0 : list nat)                              (* UThreadPool.cpp 268-270 *)
| QFJoin (j : nat) (todo l0 : list nat).

(** What a secondary thread does: between tasks, in a task, or the thread function has ended. *)
Inductive sphase := SLoop | STask | SEnded.
(** Log: a release, a creation or a sweep that has come to its end: caller, argument, accepted?, list when the mutex was taken, list at the end, threads told to stop. *)
Inductive cev := ERel (a : actor) (n : Z) (ok : bool) (before after marked : list nat) | ECre (a : actor) (n : Z) (before after : list nat) | ESwp (a : actor) (before after : list nat).
Record cst := mkC {
  c_list : list nat;            (* secondary_threads_ *)
  c_next : nat;                 (* threads made so far *)
  c_told : nat -> bool;         (* done_ == false *)
  c_ph : nat -> sphase;
  c_mx : option actor;          (* st_mutex_ *)
  c_pc : actor -> cpc;
  c_log : list cev }.
Definition c_init : cst := mkC [] 0 (fun _ => false) (fun _ => SLoop) None (fun _ => QNone) [].
Definition updA (f : actor -> cpc) (a : actor) (p : cpc) : actor -> cpc := fun b => if actor_eq b a then p else f b.
Definition to (s : cst) (a : actor) (p : cpc) : cst := mkC (c_list s) (c_next s) (c_told s) (c_ph s) (c_mx s) (updA (c_pc s) a p) (c_log s).
(** End of a call that holds the mutex. *)
Definition leave_with (s : cst) (a : actor) (e : list cev) : cst := mkC (c_list s) (c_next s) (c_told s) (c_ph s) None (updA (c_pc s) a QNone) (c_log s ++ e).
Definition lock (s : cst) (a : actor) (p : cpc) : option cst :=
  match c_mx s with None => Some (mkC (c_list s) (c_next s) (c_told s) (c_ph s) (Some a) (updA (c_pc s) a p) (c_log s)) | Some _ => None end.
Definition drop (l : list nat) (j : nat) : list nat := filter (fun x => negb (Nat.eqb x j)) l.

(** [Dead]: join of the calling thread by itself throws std::system_error in a destructor: std::terminate. *)
Inductive cout := Next (s : cst) | Dead | No.
Definition some (o : option cst) : cout := match o with Some s => Next s | None => No end.

Inductive clabel :=
| CCall (a : actor) (o : cop)
| CStep (a : actor) (frozen : bool)      (* next action in a call; frozen: answer of freeze() apart from done_ *)
| CTake (j : nat)                        (* the secondary thread takes a task *)
| CFinish (j : nat)                      (* its task comes to its end *)
| CExit (j : nat).                       (* it leaves its loop, 156, 160 *)

(** Join of [j] by [a]. *)
Definition join (s : cst) (a : actor) (j : nat) (p : cpc) : cout :=
  if actor_eq a (ASec j) then Dead else match c_ph s j with SEnded => Next (to s a p) | _ => No end.
Definition erase (s : cst) (a : actor) (j : nat) (p : cpc) : cst :=
  mkC (drop (c_list s) j) (c_next s) (upd (c_told s) j true) (c_ph s) (c_mx s) (updA (c_pc s) a p) (c_log s).

(** [room] = max_thread_size_ - default_thread_size_. *)
Definition cstep (room : Z) (s : cst) (lb : clabel) : cout :=
  match lb with
  | CCall a o =>
      match c_pc s a, (match a with AMain _ => true | ASec j => match c_ph s j with STask => Nat.ltb j (c_next s) | _ => false end end) with
      | QNone, true => Next (to s a (match o with OCreate n => QSize n | ORelease n => QRLock n | OSweep => QFLock end))
      | _, _ => No
      end
  | CTake j => if Nat.ltb j (c_next s) && negb (c_told s j) then match c_ph s j with SLoop => Next (mkC (c_list s) (c_next s) (c_told s) (upd (c_ph s) j STask) (c_mx s) (c_pc s) (c_log s)) | _ => No end else No
  | CFinish j => match c_ph s j, c_pc s (ASec j) with STask, QNone => Next (mkC (c_list s) (c_next s) (c_told s) (upd (c_ph s) j SLoop) (c_mx s) (c_pc s) (c_log s)) | _, _ => No end
  | CExit j => if c_told s j then match c_ph s j with SLoop => Next (mkC (c_list s) (c_next s) (c_told s) (upd (c_ph s) j SEnded) (c_mx s) (c_pc s) (c_log s)) | _ => No end else No
  | CStep a frozen =>
      match c_pc s a with
      | QNone => No
      | QSize n => Next (to s a (QCLock n (Z.min n (room - Z.of_nat (length (c_list s))))))
      | QCLock n real => some (lock s a (QMake n (Z.to_nat real) (c_list s)))
      | QMake n (S k) l0 => Next (mkC (c_list s ++ [c_next s]) (S (c_next s)) (c_told s) (c_ph s) (c_mx s) (updA (c_pc s) a (QMake n k l0)) (c_log s))
      | QMake n 0 l0 => Next (leave_with s a [ECre a n l0 (c_list s)])
      | QRLock n => some (lock s a (QSweep n (c_list s) (c_list s)))
      | QSweep n (j :: r) l0 => Next (if c_told s j then erase s a j (QJoin n j r l0) else to s a (QSweep n r l0))
      | QSweep n [] l0 => Next (to s a (QCheck n l0))
      | QJoin n j r l0 => join s a j (QSweep n r l0)
      | QCheck n l0 => Next (if (Z.of_nat (length (c_list s)) <? n)%Z then leave_with s a [ERel a n false l0 (c_list s) []] else to s a (QMark n (c_list s) [] l0))
      | QMark n (j :: r) marked l0 =>
          Next (if (0 <? n - Z.of_nat (length marked))%Z
                then mkC (c_list s) (c_next s) (upd (c_told s) j true) (c_ph s) (c_mx s) (updA (c_pc s) a (QMark n r (marked ++ [j]) l0)) (c_log s)
                else leave_with s a [ERel a n true l0 (c_list s) marked])
      | QMark n [] marked l0 => Next (leave_with s a [ERel a n true l0 (c_list s) marked])
      | QFLock => some (lock s a (QFreeze (c_list s) (c_list s)))
      | QFreeze (j :: r) l0 => Next (if frozen && negb (c_told s j) then erase s a j (QFJoin j r l0) else to s a (QFreeze r l0))
      | QFreeze [] l0 => Next (leave_with s a [ESwp a l0 (c_list s)])
      | QFJoin j r l0 => join s a j (QFreeze r l0)
      end
  end.
Fixpoint crun (room : Z) (s : cst) (ls : list clabel) : cout :=
  match ls with [] => Next s | x :: r => match cstep room s x with Next s1 => crun room s1 r | o => o end end.

(** commitWithPriority, UThreadPool.inl 46-54: a secondary thread is made if the list is empty. *)
Definition priority_makes (l : list nat) : bool := match l with [] => true | _ => false end.
