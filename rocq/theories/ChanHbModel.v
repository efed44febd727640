(** Messages between threads at the level of locks and accesses: UAtomicRingBufferQueue::push and waitPopWithTimeout,
    src/UtilsCtrl/ThreadPool/Queue/UAtomicRingBufferQueue.h 63-109, as GMessage::send and recv call them
    (src/GraphCtrl/GraphMessage/GMessage.h 45-60). A topic or a connection is a channel with a mutex of its own; a publication
    (GMessageManager.h 210-212) is a send of the same pointer to one channel after the other. Threads use objects between calls.
    Simplified: the ring is the list of its unread pointers (C29), with [room c] of them; a sleep on a condition variable may end
    at any time (a superset of notifications, C62); the counters of std::shared_ptr, which are atomic, and the deletion of objects
    are left out, as are the lookups of channels (C128, C129). *)
From Verif Require Export ChanHbSpec.
Local Open Scope nat_scope.
Local Open Scope list_scope.

Inductive xpc := XIdle | XWant (c o : nat) (g : strategy) | XIn (c o : nat) (g : strategy) | XSleep (c o : nat) | XPut (c o : nat)
               | YWant (c : nat) | YIn (c : nat) | YSleep (c : nat) | YTake (c : nat) | XUn (c : nat).
Record xst := mkX { x_q : nat -> list nat; x_lock : nat -> option nat; x_pc : nat -> xpc; x_log : clog }.
Definition x_new : xst := mkX (fun _ => []) (fun _ => None) (fun _ => XIdle) [].
Inductive xlab := XUse (t o : nat) (w : bool) | XSend (t c o : nat) (g : strategy) | XRecv (t c : nat) | XGo (t : nat) | XTime (t : nat).
Section R.
Variable room : nat -> nat.
Definition goto (s : xst) (t : nat) (p : xpc) (es : list cact) : xst :=
  mkX (x_q s) (x_lock s) (upd (x_pc s) t p) (x_log s ++ map (pair t) es).
Definition fill (s : xst) (c : nat) (q : list nat) : xst := mkX (upd (x_q s) c q) (x_lock s) (x_pc s) (x_log s).
Definition locks (s : xst) (c : nat) (l : option nat) : xst := mkX (x_q s) (upd (x_lock s) c l) (x_pc s) (x_log s).
(** CGRAPH_UNIQUE_LOCK lk(mutex_), 65 and 96, and the lock after a sleep. *)
Definition enter (s : xst) (t c : nat) (p : xpc) : option xst :=
  match x_lock s c with Some _ => None | None => Some (goto (locks s c (Some t)) t p [Acq c]) end.
Definition xstep (s : xst) (l : xlab) : option xst :=
  match l with
  | XUse t o w => match x_pc s t with XIdle => Some (goto s t XIdle [Note (NUse o w)]) | _ => None end
  | XSend t c o g => match x_pc s t with XIdle => Some (goto s t (XWant c o g) []) | _ => None end
  | XRecv t c => match x_pc s t with XIdle => Some (goto s t (YWant c) []) | _ => None end
  | XGo t =>
      match x_pc s t with
      | XIdle => None
      | XWant c o g => enter s t c (XIn c o g)
      | XIn c o g =>
          (* 66-76 *)
          if length (x_q s c) <? room c then Some (goto s t (XPut c o) [Note (NIdx c)])
          else match g with
               | SWait => Some (goto (locks s c None) t (XSleep c o) [Note (NIdx c); Rel c])
               | SReplace => Some (goto (fill s c (tl (x_q s c))) t (XPut c o) (Note (NIdx c) :: match x_q s c with x :: _ => [Note (NLost c x)] | [] => [] end))
               | SDrop => Some (goto s t (XUn c) [Note (NIdx c)])
               end
      | XSleep c o => enter s t c (XIn c o SWait)
      | XPut c o => (* 79-80 *) Some (goto (fill s c (x_q s c ++ [o])) t (XUn c) [Note (NPut c o)])
      | YWant c => enter s t c (YIn c)
      | YIn c =>
          (* 97-99 *)
          match x_q s c with
          | [] => Some (goto (locks s c None) t (YSleep c) [Note (NIdx c); Rel c])
          | _ => Some (goto s t (YTake c) [Note (NIdx c)])
          end
      | YSleep c => enter s t c (YIn c)
      | YTake c => (* 104-105 *)
          match x_q s c with [] => None | x :: r => Some (goto (fill s c r) t (XUn c) [Note (NGot c x)]) end
      | XUn c => Some (goto (locks s c None) t XIdle [Rel c])
      end
  | XTime t =>
      (* 101: nothing came *)
      match x_pc s t with
      | YIn c => match x_q s c with [] => Some (goto s t (XUn c) [Note (NIdx c)]) | _ => None end
      | _ => None
      end
  end.
Fixpoint xrun (s : xst) (ls : list xlab) : option xst :=
  match ls with [] => Some s | l :: r => match xstep s l with Some s' => xrun s' r | None => None end end.
End R.
Definition x_quiet (s : xst) : Prop := (forall c, x_lock s c = None) /\ forall t, x_pc s t = XIdle.
