(** The lock-free ring (Queue/ULockFreeRingBufferQueue.h) and the spin lock (Lock/USpinLock.h) with the memory orders that the code names, on the machine of WmSpec. *)
From Verif Require Import ListUtil WmSpec.
Local Open Scope nat_scope.
Local Open Scope list_scope.

(** ** The ring: thread 0 pushes, thread 1 pops. head_ is the atomic object 0, tail_ the atomic object 1, slot i of ring_buffer_ the object i. The class keeps std::unique_ptr<T> but assigns T; the elements are
    nats here; moving out of a slot counts as an access like moving in. *)
Definition HEAD := 0.
Definition TAIL := 1.
Inductive wprod := WpIdle | WpFull (v cur : nat) | WpWrite (v cur : nat) | WpStore (v cur : nat).   (* ULockFreeRingBufferQueue.h 37-38; 40-43; 45; 46 *)
Inductive wcons := WcIdle | WcTest (cur : nat) | WcRead (cur : nat) | WcStore (v cur : nat).         (* ULockFreeRingBufferQueue.h 55; 56-59; 61; 63-64 *)
Record wring := mkWR { wr_m : wmem; wr_p : wprod; wr_c : wcons;
  wr_in : list nat; wr_out : list nat;     (* values whose push has ended, values handed out: oldest first *)
  wr_miss : nat }.                         (* how often tryPop answered false *)
Definition wring_new : wring := mkWR m_new WpIdle WcIdle [] [] 0.
(** [t]: which of the values stored the load returns. *)
Inductive wlabel :=
| WPush (v t : nat)     (* push is called; loads tail_ *)
| WProd (t : nat)       (* next action of the producer *)
| WPop (t : nat)        (* tryPop is called; loads head_ *)
| WCons (t : nat)       (* next action of the consumer *)
| WTellC | WTellP.      (* the producer tells the consumer what it knows, or the consumer the producer, by means of their own *)
Inductive wout := WNo | WRace | WStep (s : wring).
Definition wring_step (n : nat) (s : wring) (l : wlabel) : wout :=
  let m := wr_m s in
  match l with
  | WPush v t =>
      match wr_p s with
      | WpIdle => match w_load Relaxed 0 TAIL t m with Some (cur, m') => WStep (mkWR m' (WpFull v cur) (wr_c s) (wr_in s) (wr_out s) (wr_miss s)) | None => WNo end
      | _ => WNo
      end
  | WProd t =>
      match wr_p s with
      | WpIdle => WNo
      | WpFull v cur =>
          match w_load Acquire 0 HEAD t m with
          | Some (h, m') => WStep (mkWR m' (if Nat.eqb ((cur + 1) mod n) h then WpFull v cur else WpWrite v cur) (wr_c s) (wr_in s) (wr_out s) (wr_miss s))
          | None => WNo
          end
      | WpWrite v cur => match w_access 0 cur (fun _ => v) m with Some (_, m') => WStep (mkWR m' (WpStore v cur) (wr_c s) (wr_in s) (wr_out s) (wr_miss s)) | None => WRace end
      | WpStore v cur => WStep (mkWR (w_store Release 0 TAIL ((cur + 1) mod n) m) WpIdle (wr_c s) (wr_in s ++ [v]) (wr_out s) (wr_miss s))
      end
  | WPop t =>
      match wr_c s with
      | WcIdle => match w_load Relaxed 1 HEAD t m with Some (cur, m') => WStep (mkWR m' (wr_p s) (WcTest cur) (wr_in s) (wr_out s) (wr_miss s)) | None => WNo end
      | _ => WNo
      end
  | WCons t =>
      match wr_c s with
      | WcIdle => WNo
      | WcTest cur =>
          match w_load Acquire 1 TAIL t m with
          | Some (h, m') => WStep (if Nat.eqb cur h then mkWR m' (wr_p s) WcIdle (wr_in s) (wr_out s) (S (wr_miss s)) else mkWR m' (wr_p s) (WcRead cur) (wr_in s) (wr_out s) (wr_miss s))
          | None => WNo
          end
      | WcRead cur => match w_access 1 cur (fun v => v) m with Some (v, m') => WStep (mkWR m' (wr_p s) (WcStore v cur) (wr_in s) (wr_out s) (wr_miss s)) | None => WRace end
      | WcStore v cur => WStep (mkWR (w_store Release 1 HEAD ((cur + 1) mod n) m) (wr_p s) WcIdle (wr_in s) (wr_out s ++ [v]) (wr_miss s))
      end
  | WTellC => WStep (mkWR (w_tell 0 1 m) (wr_p s) (wr_c s) (wr_in s) (wr_out s) (wr_miss s))
  | WTellP => WStep (mkWR (w_tell 1 0 m) (wr_p s) (wr_c s) (wr_in s) (wr_out s) (wr_miss s))
  end.
Fixpoint wring_run (n : nat) (s : wring) (ls : list wlabel) : wout :=
  match ls with [] => WStep s | l :: r => match wring_step n s l with WStep s' => wring_run n s' r | o => o end end.

(** ** The spin lock: flag_ is the atomic object 0; between lock and unlock a thread accesses objects [l] that are not atomic. *)
Definition FLAG := 0.
Inductive wspin := WsOut | WsWant | WsIn.
Record wlock := mkWL { wl_m : wmem; wl_th : nat -> wspin }.
Definition wlock_new : wlock := mkWL m_new (fun _ => WsOut).
Inductive wllabel :=
| WlCall (u : nat)                    (* lock is called *)
| WlTas (u : nat)                     (* test_and_set of lock, USpinLock.h 25 *)
| WlTry (u : nat)                     (* tryLock, USpinLock.h 41-43: the default order, which is at least acquire and release *)
| WlAccess (u l : nat) (f : nat -> nat) (* the thread that holds the lock accesses an object *)
| WlStale (u t : nat)                 (* an attempt of lock or tryLock that is placed earlier in the modification order and fails *)
| WlUnlock (u : nat)                  (* unlock, USpinLock.h 32-35; by the thread that holds the lock *)
| WlTell (u v : nat).                 (* threads synchronise by other means *)
Inductive wlout := WlNo | WlRace | WlStep (s : wlock).
(** A test_and_set that gives back false takes the lock. *)
Definition tas (o : order) (u : nat) (s : wlock) : wlock :=
  let '(v, m') := w_rmw o u FLAG 1 (wl_m s) in mkWL m' (if Nat.eqb v 0 then upd (wl_th s) u WsIn else wl_th s).
Definition wlock_step (s : wlock) (l : wllabel) : wlout :=
  match l with
  | WlCall u => match wl_th s u with WsOut => WlStep (mkWL (wl_m s) (upd (wl_th s) u WsWant)) | _ => WlNo end
  | WlTas u => match wl_th s u with WsWant => WlStep (tas Acquire u s) | _ => WlNo end
  | WlTry u => match wl_th s u with WsOut => WlStep (tas AcqRel u s) | _ => WlNo end
  | WlAccess u l f => match wl_th s u with WsIn => match w_access u l f (wl_m s) with Some (_, m') => WlStep (mkWL m' (wl_th s)) | None => WlRace end | _ => WlNo end
  | WlStale u t => match wl_th s u with WsIn => WlNo | _ => match w_load Acquire u FLAG t (wl_m s) with Some (1, m') => WlStep (mkWL m' (wl_th s)) | _ => WlNo end end
  | WlUnlock u => match wl_th s u with WsIn => WlStep (mkWL (w_store Release u FLAG 0 (wl_m s)) (upd (wl_th s) u WsOut)) | _ => WlNo end
  | WlTell u v => WlStep (mkWL (w_tell u v (wl_m s)) (wl_th s))
  end.
Fixpoint wlock_run (s : wlock) (ls : list wllabel) : wlout :=
  match ls with [] => WlStep s | l :: r => match wlock_step s l with WlStep s' => wlock_run s' r | o => o end end.
