(** Topics used by several threads at once (elements that run at the same time, or any threads of a program):
    src/GraphCtrl/GraphMessage/GMessageManager.h 34-128, GMessage.h 43-60, at the level of single accesses to the map.
    createTopic and removeTopic hold send_recv_mutex_; sendTopicValue and recvTopicValue look the topic up without it and then use
    the message through a pointer. A lookup and a change of the unordered_map take time; a change which overlaps with another
    access is a data race, hence undefined; so is the use of a message that was deleted.
    What an operation does and answers is that of MsgModel, at the moment when its last access ends.
    Simplified: a push or a pop is one step, as the message has its own mutex (the single steps, the condition variables and the
    wake-ups are in RingModel, C62); a receive may time out whenever its queue is empty. Publish/subscribe topics are left out.
    getCapacity reads capacity_, which is written by the constructor only, so that createTopic may read it at any time. *)
From Verif Require Export MsgModel.
Local Open Scope nat_scope.
Local Open Scope list_scope.

(** createTopic and removeTopic hold the mutex, GMessageManager.h 40 and 64. *)
Definition locks (o : mop) : bool := match o with MCreate _ _ _ | MRemove _ => true | _ => false end.
Definition allowed (o : mop) : bool := match o with MCreate _ _ _ | MRemove _ | MSend _ _ _ | MRecv _ _ => true | _ => false end.
Definition topic_of (o : mop) : nat := match o with MCreate k _ _ | MRemove k | MSend k _ _ | MRecv k _ => k | _ => 0 end.
Definition present (m : mst) (k : nat) : bool := match tfind k (ms_sr m) with Some _ => true | None => false end.
(** After the lookup: does the operation go on to change the map? createTopic 47-50, removeTopic 70-71. *)
Definition changes (m : mst) (o : mop) : bool :=
  match o with MCreate k _ _ => negb (present m k) | MRemove k => present m k | _ => false end.

(** Where a thread is: not in an operation; called (and possibly waiting for the mutex); looking the topic up; changing the map;
    with a pointer to the message (of the n-th topic of that name) and about to push or pop, or waiting to; done but not yet
    returned. *)
Inductive mpc := Idle | Want (o : mop) | Look (o : mop) | Change (o : mop) | Use (o : mop) (n : nat) | Out (o : mop) (a : mans).
(** What can be observed: calls, returns; and the moments when an operation takes effect. *)
Inductive mev := ECall (t : nat) (o : mop) | EAcc (t : nat) (o : mop) (a : mans) | ERet (t : nat) (o : mop) (a : mans).
(** [ts_gen k]: how many messages of topic [k] were deleted. *)
Record tst := mkTS { ts_ms : mst; ts_gen : nat -> nat; ts_lock : option nat; ts_pc : nat -> mpc; ts_tr : list mev }.
(** The effects so far, in order. *)
Definition acc_of (e : mev) : list (nat * mop * mans) := match e with EAcc t o a => [(t, o, a)] | _ => [] end.
Definition accs (tr : list mev) : list (nat * mop * mans) := flat_map acc_of tr.
Definition c_ops (tr : list mev) : list mop := map (fun x => snd (fst x)) (accs tr).

Section N.
(** Types of the messages; threads are 0, ..., [N] - 1. *)
Variable vtype : nat -> nat.
Variable N : nat.
Definition others (t : nat) : list nat := filter (fun u => negb (Nat.eqb u t)) (seq 0 N).
Definition changing (p : mpc) : bool := match p with Change _ => true | _ => false end.
Definition looking (p : mpc) : bool := match p with Look _ => true | _ => false end.
(** Is another thread changing the map; is another thread at the map at all? *)
Definition writer (s : tst) (t : nat) : bool := existsb (fun u => changing (ts_pc s u)) (others t).
Definition busy (s : tst) (t : nat) : bool := existsb (fun u => changing (ts_pc s u) || looking (ts_pc s u)) (others t).

(** [TUndef]: undefined behaviour. [TStuck]: the label cannot happen now. *)
Inductive tout := TRun (s : tst) | TUndef | TStuck.
Inductive tlabel :=
| LCall (t : nat) (o : mop)    (* thread t calls operation o *)
| LGo (t : nat)                (* thread t goes on *)
| LTime (t : nat).             (* the time a receive of thread t may wait is over *)
Definition set_pc (s : tst) (t : nat) (p : mpc) : tst := mkTS (ts_ms s) (ts_gen s) (ts_lock s) (upd (ts_pc s) t p) (ts_tr s).
Definition done_with (s : tst) (t : nat) (o : mop) (m : mst) (a : mans) : tst :=
  mkTS m (ts_gen s) (ts_lock s) (upd (ts_pc s) t (Out o a)) (ts_tr s ++ [EAcc t o a]).
Definition take_effect (s : tst) (t : nat) (o : mop) : tout :=
  match m_step vtype (ts_ms s) o with Some (m, a) => TRun (done_with s t o m a) | None => TUndef end.
Definition tstep (s : tst) (l : tlabel) : tout :=
  match l with
  | LCall t o =>
      if (t <? N) && allowed o then
        match ts_pc s t with
        | Idle => TRun (mkTS (ts_ms s) (ts_gen s) (ts_lock s) (upd (ts_pc s) t (Want o)) (ts_tr s ++ [ECall t o]))
        | _ => TStuck
        end
      else TStuck
  | LTime t =>
      (* UAtomicRingBufferQueue.h 97-102: wait_for gives up, and the queue is empty *)
      match ts_pc s t with
      | Use o n =>
          if negb (Nat.eqb (ts_gen s (topic_of o)) n) then TUndef
          else match m_step vtype (ts_ms s) o with
               | Some (m, MTimeout) => TRun (done_with s t o m MTimeout)
               | Some _ => TStuck
               | None => TUndef
               end
      | _ => TStuck
      end
  | LGo t =>
      match ts_pc s t with
      | Idle => TStuck
      | Want o =>
          (* CGRAPH_LOCK_GUARD lk(send_recv_mutex_) in createTopic and removeTopic; then find *)
          if locks o then
            match ts_lock s with
            | Some _ => TStuck
            | None => if writer s t then TUndef else TRun (mkTS (ts_ms s) (ts_gen s) (Some t) (upd (ts_pc s) t (Look o)) (ts_tr s))
            end
          else if writer s t then TUndef else TRun (set_pc s t (Look o))
      | Look o =>
          if changes (ts_ms s) o then
            (* removeTopic deletes the message (70) before it erases the entry (71) *)
            if busy s t then TUndef
            else TRun (mkTS (ts_ms s) (match o with MRemove k => upd (ts_gen s) k (S (ts_gen s k)) | _ => ts_gen s end) (ts_lock s)
                            (upd (ts_pc s) t (Change o)) (ts_tr s))
          else if negb (locks o) && present (ts_ms s) (topic_of o) then TRun (set_pc s t (Use o (ts_gen s (topic_of o))))
          else take_effect s t o
      | Change o => take_effect s t o
      | Use o n =>
          (* message->send, message->recv: push and pop, or the wait of a push into a full and of a pop from an empty queue *)
          if negb (Nat.eqb (ts_gen s (topic_of o)) n) then TUndef
          else match m_step vtype (ts_ms s) o with
               | Some (m, a) => match a with MBlocked | MTimeout => TStuck | _ => TRun (done_with s t o m a) end
               | None => TUndef
               end
      | Out o a => TRun (mkTS (ts_ms s) (ts_gen s) (if locks o then None else ts_lock s) (upd (ts_pc s) t Idle) (ts_tr s ++ [ERet t o a]))
      end
  end.
Fixpoint trun (s : tst) (ls : list tlabel) : tout :=
  match ls with [] => TRun s | l :: r => match tstep s l with TRun s' => trun s' r | x => x end end.
End N.
Definition ts_new : tst := mkTS ms_new (fun _ => 0) None (fun _ => Idle) [].
