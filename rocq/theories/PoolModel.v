(** The thread pool, src/UtilsCtrl/ThreadPool: UThreadPool.cpp, UThreadPool.inl, Thread/UThreadBase.h, UThreadPrimary.h,
    UThreadSecondary.h, Queue/UWorkStealingQueue.h, UAtomicQueue.h, UAtomicPriorityQueue.h, UThreadPoolConfig.h.
    Every section that holds a queue's mutex is one step of a thread; threads, callers and the monitor interleave freely.
    Tasks are nats. Sleeping and waking of threads is left out: a sleeping thread wakes by itself when its time is over
    (primary_thread_empty_interval_, queue_emtpy_interval_), so a wait is a thread that makes no step. *)
From Verif Require Export ListUtil.
From Coq Require Export ZArith Lia.
Local Open Scope Z_scope.
Local Open Scope list_scope.

(** UThreadPoolConfig.h 19-41; the fields that matter for where tasks go *)
Record cfg := mkCfg
  { c_def : nat;            (* default_thread_size_ *)
    c_sec : Z;              (* secondary_thread_size_ *)
    c_max : nat;            (* max_thread_size_ *)
    c_range : Z;            (* max_task_steal_range_ *)
    c_local : Z; c_pool : Z; c_steal : Z;   (* max_local_batch_size_, max_pool_batch_size_, max_steal_batch_size_ *)
    c_batch : bool;         (* batch_task_enable_ *)
    c_deliver : bool }.     (* deliver_running_primary_thread_enable_ *)
(** The defaults, UThreadPoolDefine.h 49-65 *)
Definition cfg_default : cfg := mkCfg 8 0 8 7 2 2 2 false false.
(** check, UThreadPoolConfig.h 43-59 (sizes are nats here, so the first test is about c_sec only; the monitor test is left out) *)
Definition cfg_check (c : cfg) : bool := (0 <=? c_sec c) && (Z.of_nat (c_def c) + c_sec c <=? Z.of_nat (c_max c)).
(** calcStealRange, UThreadPoolConfig.h 66-69, and buildStealTargets, UThreadPrimary.h 254-261 *)
Definition steal_range (c : cfg) : nat := Z.to_nat (Z.min (c_range c) (Z.of_nat (c_def c) - 1)).
Definition targets (c : cfg) (i : nat) : list nat := map (fun k => Nat.modulo (i + k + 1) (c_def c)) (seq 0 (steal_range c)).

(** A primary thread: UThreadBase.h 152-164, UThreadPrimary.h 91-109 *)
Inductive pth :=
| PNone                      (* no such thread *)
| PLoop                      (* testing done_ *)
| PTry (k : nat)             (* 0: own queue, k+1: the k-th steal target, then the pool's queue *)
| PRun (l : list nat)        (* tasks obtained and not yet run *)
| PExit.
(** A secondary thread: UThreadSecondary.h 68-102 *)
Inductive sth := SLoop | STry | STryPrio | SWait | SRun (l : list nat) | SExit.
(** A caller inside createSecondaryThread, UThreadPool.cpp 227-242, possibly within commitWithPriority, UThreadPool.inl 41-54:
    the number of threads it is about to create, and the task with its priority and the address it will be allocated at *)
Record pcall := mkCall { k_who : nat; k_num : Z; k_task : option (nat * (Z * nat)) }.
Record pool := mkPool
  { p_init : bool;
    p_cur : Z;                         (* cur_index_, a 32 bit integer *)
    p_wsq : nat -> list nat;           (* wsq_ of each primary thread, front first *)
    p_lk : nat -> option nat;          (* the caller that holds the mutex of that queue across calls of executeWithTid *)
    p_q : list nat;                    (* task_queue_, front first *)
    p_prio : list (nat * (Z * nat));   (* priority_task_queue_: address, priority, task *)
    p_pt : nat -> pth;
    p_stop : nat -> bool;              (* negation of done_ of the primary threads *)
    p_st : nat -> sth;                 (* secondary threads, by order of creation *)
    p_sstop : nat -> bool;
    p_nsec : nat;                      (* secondary threads created so far *)
    p_sec : list nat;                  (* secondary_threads_ *)
    p_call : list pcall;
    p_log : list nat;                  (* tasks run, newest first *)
    p_drop : list nat }.               (* tasks deleted without having been run *)
Definition pool_new : pool :=
  mkPool false 0 (fun _ => []) (fun _ => None) [] [] (fun _ => PNone) (fun _ => false) (fun _ => SExit) (fun _ => false) 0 [] [] [] [].

(** Batches. UWorkStealingQueue.h 120-124 and 161-165: while (!empty && n--) *)
Fixpoint take_n (n : Z) (l : list nat) : list nat * list nat :=
  match l with
  | [] => ([], [])
  | x :: r => if n =? 0 then ([], l) else let '(a, b) := take_n (n - 1) r in (x :: a, b)
  end.
(** UAtomicQueue.h 68-72: while (!empty && n-- > 0) *)
Fixpoint take_p (n : Z) (l : list nat) : list nat * list nat :=
  match l with
  | [] => ([], [])
  | x :: r => if n <=? 0 then ([], l) else let '(a, b) := take_p (n - 1) r in (x :: a, b)
  end.
Definition take_1 (l : list nat) : list nat * list nat := match l with [] => ([], []) | x :: r => ([x], r) end.
(** tryPop, UWorkStealingQueue.h 95-129, with UThreadPrimary.h 174-186: tasks obtained, queue left *)
Definition own_take (c : cfg) (l : list nat) : list nat * list nat := if c_batch c then take_n (c_local c) l else take_1 l.
(** trySteal, UWorkStealingQueue.h 137-170, with UThreadPrimary.h 194-247: from the back *)
Definition steal_take (c : cfg) (l : list nat) : list nat * list nat :=
  let '(a, b) := if c_batch c then take_n (c_steal c) (rev l) else take_1 (rev l) in (a, rev b).
(** tryPop, UAtomicQueue.h 44-77, with UThreadBase.h 54-76 *)
Definition pool_take (c : cfg) (l : list nat) : list nat * list nat := if c_batch c then take_p (c_pool c) l else take_1 l.
(** tryPop, UAtomicPriorityQueue.h 28-61: std::priority_queue<std::unique_ptr<T>> compares the pointers, so the top is the entry
    with the greatest address; one task at a time in both modes. *)
Fixpoint top (l : list (nat * (Z * nat))) : option (nat * (Z * nat)) :=
  match l with
  | [] => None
  | x :: r => match top r with None => Some x | Some y => if (fst y <=? fst x)%nat then Some x else Some y end
  end.
Definition drop_addr (a : nat) (l : list (nat * (Z * nat))) : list (nat * (Z * nat)) := filter (fun e => negb (Nat.eqb (fst e) a)) l.
Definition prio_take (l : list (nat * (Z * nat))) : list nat * list (nat * (Z * nat)) :=
  match top l with None => ([], l) | Some e => ([snd (snd e)], drop_addr (fst e) l) end.

(** The atomic increment of a 32 bit integer *)
Definition wrap32 (z : Z) : Z := (z + 2 ^ 31) mod 2 ^ 32 - 2 ^ 31.
(** dispatch, UThreadPool.cpp 209-224: the real index and the new cur_index_; [busy] is the value read from is_running_.
    [None]: remainder by zero. Z.rem is the remainder of C++. *)
Definition dispatch (c : cfg) (cur : Z) (idx : Z) (busy : bool) : option (Z * Z) :=
  if idx =? -1 then
    if Nat.eqb (c_max c) 0 then None
    else let r := Z.rem cur (Z.of_nat (c_max c)) in
         Some (if negb (c_deliver c) && (0 <=? r) && (r <? Z.of_nat (c_def c)) && busy then -102 else r, wrap32 (cur + 1))
  else Some (idx, cur).
Inductive queue := QOwn (i : nat) | QPool | QPrio.
(** The branches of execute, UThreadPool.inl 61-70 *)
Definition dest (c : cfg) (r : Z) : queue :=
  if (0 <=? r) && (r <? Z.of_nat (c_def c)) then QOwn (Z.to_nat r) else if r =? -101 then QPrio else QPool.

Inductive plabel :=
| LInit                                            (* init *)
| LSubmit (t : nat) (idx : Z) (busy : bool) (a : nat)   (* execute / commit; a: address, used for the priority queue *)
| LTid (p t : nat) (tid : Z) (enable lockable : bool)   (* executeWithTid by caller p *)
| LPrio (u t : nat) (prio : Z) (a : nat)           (* commitWithPriority by caller u: up to the computation of the size *)
| LMore (u : nat) (n : Z)                          (* createSecondaryThread(n) by caller u (or the monitor): the computation of the size *)
| LCreate (u : nat)                                (* the rest of createSecondaryThread, and of commitWithPriority *)
| LPrim (i : nat) (ok : bool)                      (* next action of a primary thread; ok: the queue is seen non-empty if it is, and try_lock succeeds *)
| LSec (j : nat) (ok : bool)                       (* next action of a secondary thread *)
| LStop (i : nat)                                  (* destroy: done_ = false of a primary thread *)
| LStopSec (j : nat)                               (* releaseSecondaryThread, the monitor, destroy: done_ = false of a secondary thread *)
| LErase (j : nat)                                 (* an ended secondary thread is joined and removed from the list *)
| LFinish.                                         (* the end of destroy *)
Definition find_call (u : nat) (l : list pcall) : option pcall := find (fun k => Nat.eqb (k_who k) u) l.
Definition end_call (u : nat) (l : list pcall) : list pcall := filter (fun k => negb (Nat.eqb (k_who k) u)) l.
Inductive outcome := Off | Undef | Next (s : pool).

Definition set_wsq (s : pool) (i : nat) (l : list nat) : pool :=
  mkPool (p_init s) (p_cur s) (upd (p_wsq s) i l) (p_lk s) (p_q s) (p_prio s) (p_pt s) (p_stop s) (p_st s) (p_sstop s) (p_nsec s) (p_sec s) (p_call s) (p_log s) (p_drop s).
Definition set_lk (s : pool) (i : nat) (o : option nat) : pool :=
  mkPool (p_init s) (p_cur s) (p_wsq s) (upd (p_lk s) i o) (p_q s) (p_prio s) (p_pt s) (p_stop s) (p_st s) (p_sstop s) (p_nsec s) (p_sec s) (p_call s) (p_log s) (p_drop s).
Definition set_q (s : pool) (l : list nat) : pool :=
  mkPool (p_init s) (p_cur s) (p_wsq s) (p_lk s) l (p_prio s) (p_pt s) (p_stop s) (p_st s) (p_sstop s) (p_nsec s) (p_sec s) (p_call s) (p_log s) (p_drop s).
Definition set_prio (s : pool) (l : list (nat * (Z * nat))) : pool :=
  mkPool (p_init s) (p_cur s) (p_wsq s) (p_lk s) (p_q s) l (p_pt s) (p_stop s) (p_st s) (p_sstop s) (p_nsec s) (p_sec s) (p_call s) (p_log s) (p_drop s).
Definition set_cur (s : pool) (z : Z) : pool :=
  mkPool (p_init s) z (p_wsq s) (p_lk s) (p_q s) (p_prio s) (p_pt s) (p_stop s) (p_st s) (p_sstop s) (p_nsec s) (p_sec s) (p_call s) (p_log s) (p_drop s).
Definition set_pt (s : pool) (i : nat) (x : pth) : pool :=
  mkPool (p_init s) (p_cur s) (p_wsq s) (p_lk s) (p_q s) (p_prio s) (upd (p_pt s) i x) (p_stop s) (p_st s) (p_sstop s) (p_nsec s) (p_sec s) (p_call s) (p_log s) (p_drop s).
Definition set_st (s : pool) (j : nat) (x : sth) : pool :=
  mkPool (p_init s) (p_cur s) (p_wsq s) (p_lk s) (p_q s) (p_prio s) (p_pt s) (p_stop s) (upd (p_st s) j x) (p_sstop s) (p_nsec s) (p_sec s) (p_call s) (p_log s) (p_drop s).
Definition set_call (s : pool) (l : list pcall) : pool :=
  mkPool (p_init s) (p_cur s) (p_wsq s) (p_lk s) (p_q s) (p_prio s) (p_pt s) (p_stop s) (p_st s) (p_sstop s) (p_nsec s) (p_sec s) l (p_log s) (p_drop s).
(** runTask and runTasks, UThreadBase.h 83-98 *)
Definition add_log (s : pool) (t : nat) : pool :=
  mkPool (p_init s) (p_cur s) (p_wsq s) (p_lk s) (p_q s) (p_prio s) (p_pt s) (p_stop s) (p_st s) (p_sstop s) (p_nsec s) (p_sec s) (p_call s) (t :: p_log s) (p_drop s).

(** The push into the priority queue, UAtomicPriorityQueue.h 70-74; a new allocation has an address of its own *)
Definition push_prio (s : pool) (a : nat) (prio : Z) (t : nat) : outcome :=
  if memb a (map fst (p_prio s)) then Off else Next (set_prio s (p_prio s ++ [(a, (prio, t))])).
(** leftSize and realSize, UThreadPool.cpp 230-231 *)
Definition real_size (c : cfg) (s : pool) (n : Z) : Z := Z.min n (Z.of_nat (c_max c) - Z.of_nat (c_def c) - Z.of_nat (length (p_sec s))).
(** The loop of createSecondaryThread, UThreadPool.cpp 234-239 *)
Fixpoint spawn (k : nat) (s : pool) : pool :=
  match k with
  | O => s
  | S k' =>
      let j := p_nsec s in
      spawn k' (mkPool (p_init s) (p_cur s) (p_wsq s) (p_lk s) (p_q s) (p_prio s) (p_pt s) (p_stop s)
                       (upd (p_st s) j SLoop) (upd (p_sstop s) j false) (S j) (p_sec s ++ [j]) (p_call s) (p_log s) (p_drop s))
  end.
(** init, UThreadPool.cpp 47-89; setup empties task_queue_ (UAtomicQueue.h 160-166). Nothing happens when the pool is initialised. *)
Definition pool_init (c : cfg) (s : pool) : pool :=
  if p_init s then s
  else spawn (Z.to_nat (real_size c s (c_sec c)))
         (mkPool true (p_cur s) (fun _ => []) (fun _ => None) [] (p_prio s) (fun i => if Nat.ltb i (c_def c) then PLoop else PNone) (fun _ => false)
                 (p_st s) (p_sstop s) (p_nsec s) (p_sec s) (p_call s) (p_log s) (p_q s ++ p_drop s)).
(** A primary thread, UThreadPrimary.h 91-109; fatWait (116-132) comes back to the loop *)
Definition prim_step (c : cfg) (s : pool) (i : nat) (ok : bool) : outcome :=
  match p_pt s i with
  | PNone | PExit => Off
  | PLoop => Next (set_pt s i (if p_stop s i then PExit else PTry 0))
  | PRun [] => Next (set_pt s i PLoop)
  | PRun (t :: r) => Next (add_log (set_pt s i (PRun r)) t)
  | PTry 0 =>
      match (if ok then p_lk s i else Some 0%nat), own_take c (p_wsq s i) with
      | None, (x :: a, b) => Next (set_pt (set_wsq s i b) i (PRun (x :: a)))
      | _, _ => Next (set_pt s i (PTry 1))
      end
  | PTry (S k) =>
      match nth_error (targets c i) k with
      | Some j =>
          match (if ok then p_lk s j else Some 0%nat), steal_take c (p_wsq s j) with
          | None, (x :: a, b) => Next (set_pt (set_wsq s j b) i (PRun (x :: a)))
          | _, _ => Next (set_pt s i (PTry (S (S k))))
          end
      | None =>
          match ok, pool_take c (p_q s) with
          | true, (x :: a, b) => Next (set_pt (set_q s b) i (PRun (x :: a)))
          | _, _ => Next (set_pt s i PLoop)
          end
      end
  end.
(** A secondary thread, UThreadSecondary.h 68-102; [SWait]: popWithTimeout, UAtomicQueue.h 84-98, which gives up when its time is
    over (ok = false) *)
Definition sec_step (c : cfg) (s : pool) (j : nat) (ok : bool) : outcome :=
  match p_st s j with
  | SExit => Off
  | SLoop => Next (set_st s j (if p_sstop s j then SExit else STry))
  | SRun [] => Next (set_st s j SLoop)
  | SRun (t :: r) => Next (add_log (set_st s j (SRun r)) t)
  | STry =>
      match ok, pool_take c (p_q s) with
      | true, (x :: a, b) => Next (set_st (set_q s b) j (SRun (x :: a)))
      | _, _ => Next (set_st s j STryPrio)
      end
  | STryPrio =>
      match ok, prio_take (p_prio s) with
      | true, (x :: a, b) => Next (set_st (set_prio s b) j (SRun (x :: a)))
      | _, _ => Next (set_st s j SWait)
      end
  | SWait =>
      match ok, p_q s with
      | true, x :: b => Next (set_st (set_q s b) j (SRun [x]))
      | _, _ => Next (set_st s j SLoop)
      end
  end.
Definition pool_step (c : cfg) (s : pool) (l : plabel) : outcome :=
  match l with
  | LInit => Next (pool_init c s)
  | LSubmit t idx busy a => (* UThreadPool.inl 58-71; a push waits while the mutex is held. Before init and after destroy
                               primary_threads_ is empty: the access to it is undefined. *)
      match dispatch c (p_cur s) idx busy with
      | None => Undef
      | Some (r, cur') =>
          match dest c r with
          | QOwn i => if p_init s then match p_lk s i with None => Next (set_cur (set_wsq s i (p_wsq s i ++ [t])) cur') | Some _ => Off end else Undef
          | QPool => Next (set_cur (set_q s (p_q s ++ [t])) cur')
          | QPrio => push_prio (set_cur s cur') a (-101) t
          end
      end
  | LTid p t tid enable lockable => (* UThreadPool.inl 75-82, UThreadPrimary.h 157-166, UWorkStealingQueue.h 45-53 *)
      if (0 <=? tid) && (tid <? Z.of_nat (c_def c)) then
        let i := Z.to_nat tid in
        if negb (p_init s) then Undef
        else if enable && lockable then
          match p_lk s i with
          | None => Next (set_lk (set_wsq s i (p_wsq s i ++ [t])) i (Some p))
          | Some q => if Nat.eqb q p then Undef else Off          (* locking a mutex one holds is undefined *)
          end
        else match p_lk s i with
             | Some q =>
                 if Nat.eqb q p then
                   let s' := set_wsq s i (p_wsq s i ++ [t]) in Next (if enable then set_lk s' i None else s')
                 else Undef                                       (* unlocked access to the deque, or unlock of someone else's mutex *)
             | None => Undef
             end
      else Next (set_q s (p_q s ++ [t]))
  | LPrio u t prio a => (* UThreadPool.inl 48-50 *)
      match find_call u (p_call s) with
      | None => Next (set_call s (mkCall u (match p_sec s with [] => real_size c s 1 | _ => 0 end) (Some (a, (prio, t))) :: p_call s))
      | Some _ => Off
      end
  | LMore u n =>
      match find_call u (p_call s) with
      | None => Next (set_call s (mkCall u (real_size c s n) None :: p_call s))
      | Some _ => Off
      end
  | LCreate u =>
      match find_call u (p_call s) with
      | None => Off
      | Some k =>
          let s' := set_call (spawn (Z.to_nat (k_num k)) s) (end_call u (p_call s)) in
          match k_task k with None => Next s' | Some (a, (prio, t)) => push_prio s' a prio t end
      end
  | LPrim i ok => prim_step c s i ok
  | LSec j ok => sec_step c s j ok
  | LStop i => (* UThreadPool.cpp 148-151, UThreadBase.h 104-118 *)
      if p_init s && Nat.ltb i (c_def c)
      then Next (mkPool (p_init s) (p_cur s) (p_wsq s) (p_lk s) (p_q s) (p_prio s) (p_pt s) (upd (p_stop s) i true) (p_st s) (p_sstop s) (p_nsec s) (p_sec s) (p_call s) (p_log s) (p_drop s))
      else Off
  | LStopSec j => (* UThreadPool.cpp 200-204 *)
      if memb j (p_sec s)
      then Next (mkPool (p_init s) (p_cur s) (p_wsq s) (p_lk s) (p_q s) (p_prio s) (p_pt s) (p_stop s) (p_st s) (upd (p_sstop s) j true) (p_nsec s) (p_sec s) (p_call s) (p_log s) (p_drop s))
      else Off
  | LErase j => (* UThreadPool.cpp 190-193, 268-270; the destructor joins the thread, UThreadBase.h 35-37 *)
      match p_st s j with
      | SExit => if memb j (p_sec s)
                 then Next (mkPool (p_init s) (p_cur s) (p_wsq s) (p_lk s) (p_q s) (p_prio s) (p_pt s) (p_stop s) (p_st s) (p_sstop s) (p_nsec s)
                                   (filter (fun x => negb (Nat.eqb x j)) (p_sec s)) (p_call s) (p_log s) (p_drop s))
                 else Off
      | _ => Off
      end
  | LFinish => (* UThreadPool.cpp 141-178, once all threads have ended: the primary threads are deleted with their queues *)
      if p_init s && forallb (fun i => match p_pt s i with PExit => true | _ => false end) (seq 0 (c_def c))
         && forallb (fun j => match p_st s j with SExit => true | _ => false end) (p_sec s)
      then if existsb (fun i => match p_lk s i with Some _ => true | None => false end) (seq 0 (c_def c)) then Undef
           else Next (mkPool false (p_cur s) (fun _ => []) (p_lk s) (p_q s) (p_prio s) (fun _ => PNone) (p_stop s) (p_st s) (p_sstop s) (p_nsec s) [] (p_call s) (p_log s)
                             (flat_map (p_wsq s) (seq 0 (c_def c)) ++ p_drop s))
      else Off
  end.
(** A history, oldest label first. [None] if a step was not possible or undefined. *)
Fixpoint pool_run (c : cfg) (s : pool) (ls : list plabel) : option pool :=
  match ls with
  | [] => Some s
  | l :: r => match pool_step c s l with Next s' => pool_run c s' r | _ => None end
  end.
