(** Synchronisation classes of the thread pool library, src/UtilsCtrl/ThreadPool: Lock/USpinLock.h, Semaphore/USemaphore.h,
    Queue/ULockFreeRingBufferQueue.h. Every atomic access is one step; steps of all threads interleave freely and are seen by all at once
    (sequential consistency: the memory orders given in the code are modelled in WmModel, C126). *)
From Verif Require Export ListUtil.
From Coq Require Export ZArith Lia.
Local Open Scope list_scope.

(** USpinLock.h 18-46 *)
Inductive spin := SpOut | SpWant | SpIn.
Record lock := mkLock { lk_flag : bool; lk_th : nat -> spin }.
Definition lock_new : lock := mkLock false (fun _ => SpOut).
Inductive llabel :=
| LkCall (u : nat)      (* lock is called *)
| LkTas (u : nat)       (* test_and_set of lock, 25: leave the loop if the flag was clear *)
| LkTry (u : nat)       (* tryLock, USpinLock.h 41-43 *)
| LkUnlock (u : nat).   (* unlock, USpinLock.h 32-35; by the thread that holds the lock *)
Definition lock_step (s : lock) (l : llabel) : option lock :=
  match l with
  | LkCall u => match lk_th s u with SpOut => Some (mkLock (lk_flag s) (upd (lk_th s) u SpWant)) | _ => None end
  | LkTas u => match lk_th s u with SpWant => Some (mkLock true (if lk_flag s then lk_th s else upd (lk_th s) u SpIn)) | _ => None end
  | LkTry u => match lk_th s u with SpOut => Some (mkLock true (if lk_flag s then lk_th s else upd (lk_th s) u SpIn)) | _ => None end
  | LkUnlock u => match lk_th s u with SpIn => Some (mkLock false (upd (lk_th s) u SpOut)) | _ => None end
  end.
Fixpoint lock_run (s : lock) (ls : list llabel) : option lock :=
  match ls with [] => Some s | l :: r => match lock_step s l with Some s' => lock_run s' r | None => None end end.

(** USemaphore.h 24-43. A waiting thread leaves wait when it is notified (or wakes up for no reason) and cnt_ < 0 holds then. *)
Record sema := mkSema { sm_cnt : Z; sm_wait : list nat; sm_sig : nat; sm_calls : nat; sm_ret : list nat }.  (* sm_ret: threads whose wait returned, newest first *)
Definition sema_new : sema := mkSema 0 [] 0 0 [].
Inductive mlabel :=
| SmSignal               (* signal *)
| SmWait (u : nat)       (* wait up to and including the first evaluation of the condition *)
| SmWake (u : nat).      (* a waiting thread wakes up and evaluates the condition; whether it was notified plays no part for the safety claims *)
Definition sema_step (s : sema) (l : mlabel) : option sema :=
  match l with
  | SmSignal => Some (mkSema (sm_cnt s + 1) (sm_wait s) (S (sm_sig s)) (sm_calls s) (sm_ret s))
  | SmWait u =>
      if memb u (sm_wait s) then None
      else let c := (sm_cnt s - 1)%Z in
           if (c <? 0)%Z then Some (mkSema c (sm_wait s) (sm_sig s) (S (sm_calls s)) (u :: sm_ret s))
           else Some (mkSema c (u :: sm_wait s) (sm_sig s) (S (sm_calls s)) (sm_ret s))
  | SmWake u =>
      if memb u (sm_wait s) then
        if (sm_cnt s <? 0)%Z then Some (mkSema (sm_cnt s) (filter (fun x => negb (Nat.eqb x u)) (sm_wait s)) (sm_sig s) (sm_calls s) (u :: sm_ret s)) else Some s
      else None
  end.
Fixpoint sema_run (s : sema) (ls : list mlabel) : option sema :=
  match ls with [] => Some s | l :: r => match sema_step s l with Some s' => sema_run s' r | None => None end end.

(** ULockFreeRingBufferQueue.h 21-73. The class keeps std::unique_ptr<T> but assigns T; the elements are nats here and are copied. *)
Inductive prod := PrIdle | PrFull (v cur : nat) | PrWrite (v cur : nat) | PrStore (v cur : nat).   (* ULockFreeRingBufferQueue.h 37-38; 40-43; 45; 46 *)
Inductive cons := CoIdle | CoTest (cur : nat) | CoRead (cur : nat) | CoStore (v cur : nat).        (* ULockFreeRingBufferQueue.h 55; 56-59; 61; 63-64 *)
Record lring := mkLR { q_buf : nat -> nat; q_head : nat; q_tail : nat; q_pr : nat -> prod; q_co : nat -> cons;
                       q_in : list nat; q_out : list nat;      (* values whose push has ended, values handed out: oldest first *)
                       q_miss : nat }.                         (* how often tryPop answered false *)
Definition lring_new : lring := mkLR (fun _ => 0) 0 0 (fun _ => PrIdle) (fun _ => CoIdle) [] [] 0.
Inductive rlabel :=
| RPush (u v : nat)    (* push is called; loads tail_ *)
| RProd (u : nat)      (* next action of the producer *)
| RPop (u : nat)       (* tryPop is called; loads head_ *)
| RCons (u : nat).     (* next action of the consumer *)
Definition set_pr (s : lring) u x := mkLR (q_buf s) (q_head s) (q_tail s) (upd (q_pr s) u x) (q_co s) (q_in s) (q_out s) (q_miss s).
Definition set_co (s : lring) u x := mkLR (q_buf s) (q_head s) (q_tail s) (q_pr s) (upd (q_co s) u x) (q_in s) (q_out s) (q_miss s).
Definition lring_step (n : nat) (s : lring) (l : rlabel) : option lring :=
  match l with
  | RPush u v => match q_pr s u with PrIdle => Some (set_pr s u (PrFull v (q_tail s))) | _ => None end
  | RProd u =>
      match q_pr s u with
      | PrIdle => None
      | PrFull v cur => if Nat.eqb ((cur + 1) mod n) (q_head s) then Some s else Some (set_pr s u (PrWrite v cur))
      | PrWrite v cur => Some (mkLR (upd (q_buf s) cur v) (q_head s) (q_tail s) (upd (q_pr s) u (PrStore v cur)) (q_co s) (q_in s) (q_out s) (q_miss s))
      | PrStore v cur => Some (mkLR (q_buf s) (q_head s) ((cur + 1) mod n) (upd (q_pr s) u PrIdle) (q_co s) (q_in s ++ [v]) (q_out s) (q_miss s))
      end
  | RPop u => match q_co s u with CoIdle => Some (set_co s u (CoTest (q_head s))) | _ => None end
  | RCons u =>
      match q_co s u with
      | CoIdle => None
      | CoTest cur => if Nat.eqb cur (q_tail s) then Some (mkLR (q_buf s) (q_head s) (q_tail s) (q_pr s) (upd (q_co s) u CoIdle) (q_in s) (q_out s) (S (q_miss s)))
                      else Some (set_co s u (CoRead cur))
      | CoRead cur => Some (set_co s u (CoStore (q_buf s cur) cur))
      | CoStore v cur => Some (mkLR (q_buf s) ((cur + 1) mod n) (q_tail s) (q_pr s) (upd (q_co s) u CoIdle) (q_in s) (q_out s ++ [v]) (q_miss s))
      end
  end.
Fixpoint lring_run (n : nat) (s : lring) (ls : list rlabel) : option lring :=
  match ls with [] => Some s | l :: r => match lring_step n s l with Some s' => lring_run n s' r | None => None end end.
