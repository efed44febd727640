(** The message manager: send/receive topics and publish/subscribe topics, src/GraphCtrl/GraphMessage/GMessageManager.h and
    GMessage.h. Topics, types and messages are nats; [vtype] gives the type a message was made with. Each call is one step: it
    runs while no other thread uses the manager. Undefined behaviour is the outcome [None]. *)
From Verif Require Export RingSpec.
From Coq Require Import Lia.
Local Open Scope nat_scope.
Local Open Scope list_scope.

Section Msg.
Variable vtype : nat -> nat.

(** unordered_map from topics *)
Fixpoint tfind {A} (k : nat) (m : list (nat * A)) : option A :=
  match m with [] => None | (k', x) :: r => if Nat.eqb k k' then Some x else tfind k r end.
Definition terase {A} (k : nat) (m : list (nat * A)) : list (nat * A) := filter (fun e => negb (Nat.eqb (fst e) k)) m.
Definition tset {A} (k : nat) (x : A) (m : list (nat * A)) : list (nat * A) := (k, x) :: terase k m.

Record mst := mkMS
  { ms_sr : list (nat * (nat * rb));        (* send_recv_message_map_: topic -> type of the message queue, queue *)
    ms_heap : nat -> option (nat * rb);     (* publish/subscribe messages by address: connection id, queue; None: freed or never made *)
    ms_ps : list (nat * list nat);          (* pub_sub_message_map_: topic -> set of addresses, in address order *)
    ms_conn : nat -> option nat;            (* conn_message_map_ *)
    ms_next : nat;                          (* cur_conn_id_ *)
    ms_addr : nat }.                        (* addresses used so far *)
Definition ms_new : mst := mkMS [] (fun _ => None) [] (fun _ => None) 0 0.

Inductive mop :=
| MCreate (k t size : nat) | MRemove (k : nat) | MSend (k v : nat) (g : strategy) | MRecv (k t : nat)
| MBind (k t size pos : nat)    (* pos: place of the new address in the ordered set *)
| MDetach (k c : nat) | MPub (k v : nat) (g : strategy) | MSub (c t : nat) | MDrop (k : nat) | MClear.
Inductive mans :=
| MOk | MErr | MTimeout
| MGot (v : nat)               (* OK, the message *)
| MConfused (v : nat)          (* OK, a pointer to message v typed as something else *)
| MConn (c : nat)              (* the connection id *)
| MBlocked.                    (* the call waits *)

Definition set_sr (x : list (nat * (nat * rb))) (s : mst) := mkMS x (ms_heap s) (ms_ps s) (ms_conn s) (ms_next s) (ms_addr s).
Definition set_heap (x : nat -> option (nat * rb)) (s : mst) := mkMS (ms_sr s) x (ms_ps s) (ms_conn s) (ms_next s) (ms_addr s).

(** What a receive hands out: GMessagePtr<TImpl> cast and waitPopWithTimeout, GMessageManager.h 96-99 and 232-233. *)
Definition got (t : nat) (x : option nat) : option mans :=
  match x with Some v => Some (if Nat.eqb (vtype v) t then MGot v else MConfused v) | None => None end.
(** createTopic, GMessageManager.h 34-54 *)
Definition m_create (k t size : nat) (s : mst) : mst * mans :=
  match tfind k (ms_sr s) with
  | Some (t', b) => (s, if Nat.eqb t' t && Nat.eqb (rb_cap b) size then MOk else MErr)
  | None => (set_sr (tset k (t, rb_new size) (ms_sr s)) s, MOk)
  end.
(** removeTopic, GMessageManager.h 61-74 *)
Definition m_remove (k : nat) (s : mst) : mst * mans :=
  match tfind k (ms_sr s) with Some _ => (set_sr (terase k (ms_sr s)) s, MOk) | None => (s, MErr) end.
Definition push_ans (p : presult) : mans := match p with PBlocked => MBlocked | _ => MOk end.
(** sendTopicValue, GMessageManager.h 111-128 *)
Definition m_send (k v : nat) (g : strategy) (s : mst) : option (mst * mans) :=
  match tfind k (ms_sr s) with
  | Some (t, b) => match rb_push v g b with Some (b', p) => Some (set_sr (tset k (t, b') (ms_sr s)) s, push_ans p) | None => None end
  | None => Some (s, MErr)
  end.
(** recvTopicValue, GMessageManager.h 84-101 *)
Definition m_recv (k t : nat) (s : mst) : option (mst * mans) :=
  match tfind k (ms_sr s) with
  | Some (t', b) =>
      match rb_pop b with
      | Some (b', None) => Some (s, MTimeout)
      | Some (b', Some x) => match got t x with Some a => Some (set_sr (tset k (t', b') (ms_sr s)) s, a) | None => None end
      | None => None
      end
  | None => Some (s, MErr)
  end.
(** std::set::insert of an address, at its place in the order *)
Definition insert_at (pos a : nat) (l : list nat) : list nat := firstn pos l ++ a :: skipn pos l.
(** bindTopic, GMessageManager.h 137-158 *)
Definition m_bind (k t size pos : nat) (s : mst) : mst * mans :=
  let c := S (ms_next s) in
  let a := ms_addr s in
  let l := match tfind k (ms_ps s) with Some l => l | None => [] end in
  (mkMS (ms_sr s) (upd (ms_heap s) a (Some (c, rb_new size))) (tset k (insert_at pos a l) (ms_ps s)) (upd (ms_conn s) c (Some a)) c (S a), MConn c).
(** The loop of detachConnId, GMessageManager.h 178-184: reads each message of the set until the connection is found; the address stays in the
    set. *)
Fixpoint detach_loop (c : nat) (l : list nat) (s : mst) : option mst :=
  match l with
  | [] => Some s
  | a :: r =>
      match ms_heap s a with
      | None => None
      | Some (c', _) => if Nat.eqb c c' then Some (mkMS (ms_sr s) (upd (ms_heap s) a None) (ms_ps s) (upd (ms_conn s) c None) (ms_next s) (ms_addr s))
                        else detach_loop c r s
      end
  end.
(** detachConnId, GMessageManager.h 166-187 *)
Definition m_detach (k c : nat) (s : mst) : option (mst * mans) :=
  match tfind k (ms_ps s) with
  | None => Some (s, MErr)
  | Some l => match detach_loop c l s with Some s' => Some (s', MOk) | None => None end
  end.
(** The loop of pubTopicValue, GMessageManager.h 210-212; the boolean: the call waits in the middle of it. *)
Fixpoint pub_loop (v : nat) (g : strategy) (l : list nat) (h : nat -> option (nat * rb)) : option ((nat -> option (nat * rb)) * bool) :=
  match l with
  | [] => Some (h, false)
  | a :: r =>
      match h a with
      | None => None
      | Some (c, b) =>
          match rb_push v g b with
          | None => None
          | Some (_, PBlocked) => Some (h, true)
          | Some (b', _) => pub_loop v g r (upd h a (Some (c, b')))
          end
      end
  end.
(** pubTopicValue, GMessageManager.h 197-214 *)
Definition m_pub (k v : nat) (g : strategy) (s : mst) : option (mst * mans) :=
  match tfind k (ms_ps s) with
  | None => Some (s, MErr)
  | Some l => match pub_loop v g l (ms_heap s) with
              | Some (h, blocked) => Some (set_heap h s, if blocked then MBlocked else MOk)
              | None => None
              end
  end.
(** subTopicValue, GMessageManager.h 224-235 *)
Definition m_sub (c t : nat) (s : mst) : option (mst * mans) :=
  match ms_conn s c with
  | None => Some (s, MErr)
  | Some a =>
      match ms_heap s a with
      | None => None
      | Some (c', b) =>
          match rb_pop b with
          | Some (_, None) => Some (s, MTimeout)
          | Some (b', Some x) => match got t x with Some r => Some (set_heap (upd (ms_heap s) a (Some (c', b'))) s, r) | None => None end
          | None => None
          end
      end
  end.
(** delete of every message of a set; deleting a freed one is undefined *)
Fixpoint free_all (l : list nat) (h : nat -> option (nat * rb)) : option (nat -> option (nat * rb)) :=
  match l with
  | [] => Some h
  | a :: r => match h a with None => None | Some _ => free_all r (upd h a None) end
  end.
(** dropTopic, GMessageManager.h 242-257: the connections stay in conn_message_map_. *)
Definition m_drop (k : nat) (s : mst) : option (mst * mans) :=
  match tfind k (ms_ps s) with
  | None => Some (s, MErr)
  | Some l => match free_all l (ms_heap s) with
              | Some h => Some (mkMS (ms_sr s) h (terase k (ms_ps s)) (ms_conn s) (ms_next s) (ms_addr s), MOk)
              | None => None
              end
  end.
(** clear, GMessageManager.h 263-286, also from the destructor *)
Definition m_clear (s : mst) : option (mst * mans) :=
  match free_all (concat (map snd (ms_ps s))) (ms_heap s) with
  | Some h => Some (mkMS [] h [] (fun _ => None) 0 (ms_addr s), MOk)
  | None => None
  end.
Definition m_step (s : mst) (o : mop) : option (mst * mans) :=
  match o with
  | MCreate k t size => Some (m_create k t size s)
  | MRemove k => Some (m_remove k s)
  | MSend k v g => m_send k v g s
  | MRecv k t => m_recv k t s
  | MBind k t size pos => Some (m_bind k t size pos s)
  | MDetach k c => m_detach k c s
  | MPub k v g => m_pub k v g s
  | MSub c t => m_sub c t s
  | MDrop k => m_drop k s
  | MClear => m_clear s
  end.
(** The state after a history, newest call first. *)
Fixpoint m_after (h : list mop) : option mst :=
  match h with
  | [] => Some ms_new
  | o :: r => match m_after r with Some s => match m_step s o with Some (s', _) => Some s' | None => None end | None => None end
  end.
(** The answer of a call after a history; [None]: undefined behaviour in it or before. *)
Definition m_answer (h : list mop) (o : mop) : option mans :=
  match m_after h with Some s => match m_step s o with Some (_, a) => Some a | None => None end | None => None end.
End Msg.
