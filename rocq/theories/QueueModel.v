(** The task queues of the thread pool step by step: UWorkStealingQueue.h and UAtomicQueue.h in src/UtilsCtrl/ThreadPool/Queue, used by any number of threads.

    One label is one access to the mutex, the container, the flag or the condition variable by one thread; memory is sequentially consistent (see the data race of the
    tests outside of the mutex). Simplified: values are numbers; batch sizes are not negative; the push of UWorkStealingQueue that keeps the mutex across
    calls (lines 45-53) is in PoolModel; waitPop, empty and setup of UAtomicQueue are left out. *)
From Verif Require Export ListUtil.
Local Open Scope nat_scope.
Local Open Scope list_scope.

(** Operations:
    push of one or several values (UWorkStealingQueue.h 27-36, 77-88; UAtomicQueue.h 117-130, with [notify]); tryPush (UWorkStealingQueue.h 60-70);
    tryPop of at most [n] values from the front (UWorkStealingQueue.h 95-129, UAtomicQueue.h 44-77; n = 1: the version for a single value);
    trySteal of at most [n] values from the back (UWorkStealingQueue.h 137-170); popWithTimeout (UAtomicQueue.h 83-98); reset (UAtomicQueue.h 147-153). *)
Inductive qop := OPush (vs : list nat) (notify : bool) | OTryPush (v : nat) | OPop (n : nat) | OSteal (n : nat) | OTimed | OReset.

(** Where a thread is. *)
Inductive qpc :=
| PIdle
| PTest (o : qop)                                          (* about to read deque_.empty() without the mutex *)
| PTry (o : qop)                                           (* about to try_lock *)
| PIn (o : qop) (todo : list nat) (k : nat) (got : list nat) (* holds the mutex: values still to be pushed, values that may still be taken, values taken *)
| PUnlock (o : qop) (got : list nat)                       (* holds the mutex, about to unlock *)
| PNotify (o : qop) (got : list nat)                       (* about to notify_one *)
| PLock                                                    (* popWithTimeout: about to lock *)
| PEval (late : bool)                                      (* holds the mutex, about to evaluate the predicate; late: the time is over *)
| PSleep                                                   (* blocked in wait_for *)
| PWake (late : bool)                                      (* woken, about to lock again *)
| PFail                                                    (* holds the mutex, about to return null *)
| PRLock | PRIn | PRNotify.                                (* reset: lock; ready_flag_ = false and unlock; notify_all *)

(** Events: call, effect (at the unlock), return with the values obtained (None: false or null). *)
Inductive qev := VCall (t : nat) (o : qop) | VLin (t : nat) (o : qop) (got : list nat) | VRet (t : nat) (r : option (list nat)).
Record qst := mkQ { q_own : option nat; q_l : list nat; q_ready : bool; q_pc : nat -> qpc; q_tr : list qev }.
Definition q_init : qst := mkQ None [] true (fun _ => PIdle) [].

Inductive qlabel :=
| QCall (t : nat) (o : qop)
| QStep (t : nat) (w : option nat)     (* next action of the thread; w: the thread that notify_one wakes *)
| QLate (t : nat)                      (* the time of wait_for is over *)
| QSpurious (t : nat).                 (* spurious wake up *)

Definition start (o : qop) : qpc :=
  match o with OPush _ _ | OTryPush _ => PTry o | OPop _ | OSteal _ => PTest o | OTimed => PLock | OReset => PRLock end.
(** The state of the loop at its begin. *)
Definition enter (o : qop) : qpc :=
  match o with
  | OPush vs _ => PIn o vs 0 [] | OTryPush v => PIn o [v] 0 [] | OPop n | OSteal n => PIn o [] n [] | _ => PIn o [] 0 []
  end.
Definition set_pc (s : qst) (t : nat) (p : qpc) : qst := mkQ (q_own s) (q_l s) (q_ready s) (upd (q_pc s) t p) (q_tr s).
Definition ret (s : qst) (t : nat) (r : option (list nat)) : qst := mkQ (q_own s) (q_l s) (q_ready s) (upd (q_pc s) t PIdle) (q_tr s ++ [VRet t r]).
Definition is_sleep (p : qpc) : bool := match p with PSleep => true | _ => false end.
(** Wake of all sleeping threads (reset, UAtomicQueue.h 152). *)
Definition wake_all (f : nat -> qpc) : nat -> qpc := fun t => match f t with PSleep => PWake false | p => p end.

(** [n]: number of threads. None: the label is not possible. *)
Definition qstep (n : nat) (s : qst) (lb : qlabel) : option qst :=
  match lb with
  | QCall t o =>
      if Nat.ltb t n then match q_pc s t with PIdle => Some (mkQ (q_own s) (q_l s) (q_ready s) (upd (q_pc s) t (start o)) (q_tr s ++ [VCall t o])) | _ => None end else None
  | QLate t => if Nat.ltb t n then match q_pc s t with PSleep => Some (set_pc s t (PWake true)) | _ => None end else None
  | QSpurious t => if Nat.ltb t n then match q_pc s t with PSleep => Some (set_pc s t (PWake false)) | _ => None end else None
  | QStep t w =>
      if Nat.ltb t n then
        match q_pc s t with
        | PIdle | PSleep => None
        | PTest o => match q_l s with [] => Some (ret s t None) | _ => Some (set_pc s t (PTry o)) end
        | PTry o =>
            match q_own s with
            | None => Some (mkQ (Some t) (q_l s) (q_ready s) (upd (q_pc s) t (enter o)) (q_tr s))
            | Some _ => match o with OPush _ _ => Some s | _ => Some (ret s t None) end
            end
        | PIn o todo k got =>
            match o with
            | OPop _ =>
                match k, q_l s with
                | S j, x :: r => Some (mkQ (q_own s) r (q_ready s) (upd (q_pc s) t (PIn o todo j (got ++ [x]))) (q_tr s))
                | _, _ => Some (set_pc s t (PUnlock o got))
                end
            | OSteal _ =>
                match k, rev (q_l s) with
                | S j, x :: r => Some (mkQ (q_own s) (rev r) (q_ready s) (upd (q_pc s) t (PIn o todo j (got ++ [x]))) (q_tr s))
                | _, _ => Some (set_pc s t (PUnlock o got))
                end
            | _ =>
                match todo with
                | x :: r => Some (mkQ (q_own s) (q_l s ++ [x]) (q_ready s) (upd (q_pc s) t (PIn o r k got)) (q_tr s))
                | [] => Some (set_pc s t (PUnlock o got))
                end
            end
        | PUnlock o got =>
            let tr := q_tr s ++ [VLin t o got] in
            match o with
            | OPush _ true => Some (mkQ None (q_l s) (q_ready s) (upd (q_pc s) t (PNotify o got)) tr)
            | _ => Some (mkQ None (q_l s) (q_ready s) (upd (q_pc s) t PIdle) (tr ++ [VRet t (Some got)]))
            end
        | PNotify o got =>
            match w with
            | Some x => if Nat.ltb x n && is_sleep (q_pc s x) then Some (ret (set_pc s x (PWake false)) t (Some got)) else None
            | None => if existsb (fun x => is_sleep (q_pc s x)) (seq 0 n) then None else Some (ret s t (Some got))
            end
        | PLock => match q_own s with None => Some (mkQ (Some t) (q_l s) (q_ready s) (upd (q_pc s) t (PEval false)) (q_tr s)) | Some _ => None end
        | PWake late => match q_own s with None => Some (mkQ (Some t) (q_l s) (q_ready s) (upd (q_pc s) t (PEval late)) (q_tr s)) | Some _ => None end
        | PEval late =>
            if q_ready s then
              match q_l s with
              | x :: r => Some (mkQ (q_own s) r (q_ready s) (upd (q_pc s) t (PUnlock OTimed [x])) (q_tr s))
              | [] => if late then Some (set_pc s t PFail) else Some (mkQ None (q_l s) (q_ready s) (upd (q_pc s) t PSleep) (q_tr s))
              end
            else Some (set_pc s t PFail)
        | PFail => Some (ret (mkQ None (q_l s) (q_ready s) (q_pc s) (q_tr s)) t None)
        | PRLock => match q_own s with None => Some (mkQ (Some t) (q_l s) (q_ready s) (upd (q_pc s) t PRIn) (q_tr s)) | Some _ => None end
        | PRIn => Some (mkQ None (q_l s) false (upd (q_pc s) t PRNotify) (q_tr s ++ [VLin t OReset []]))
        | PRNotify => Some (ret (mkQ (q_own s) (q_l s) (q_ready s) (wake_all (q_pc s)) (q_tr s)) t (Some []))
        end
      else None
  end.
Fixpoint qrun (n : nat) (s : qst) (ls : list qlabel) : option qst :=
  match ls with [] => Some s | x :: r => match qstep n s x with Some s1 => qrun n s1 r | None => None end end.
