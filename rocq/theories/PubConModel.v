(** Publish/subscribe topics used by several threads at once: bindTopic, pubTopicValue and subTopicValue,
    src/GraphCtrl/GraphMessage/GMessageManager.h 137-158, 197-235, at the level of single accesses.
    bindTopic holds pub_sub_mutex_; pubTopicValue looks its topic up and goes through the set of its messages without it, pushing
    to one after the other; subTopicValue looks its connection up without it. A change of a container which overlaps with another
    access to the same container is a data race, hence undefined.
    Simplified: connections stand for their messages (each has its own; the order in a set is that of the addresses, [pos] of a
    bind); a push or a pop is one step, as the message has its own mutex (RingModel, C62); values have the type asked for (C63); a
    receive may time out whenever its queue is empty; conn_message_map_[connId] with a present key (232) counts as a read, as
    implementations do it. detachConnId, dropTopic and clear are left out: they leave pointers to
    deleted messages behind (C31). *)
From Verif Require Export RingSpec MsgModel.
Local Open Scope nat_scope.
Local Open Scope list_scope.

Inductive bop := OBind (k size pos : nat) | OPub (k v : nat) (g : strategy) | OSub (c : nat).
Inductive bans := BOk | BErr | BTimeout | BGot (v : nat) | BConn (c : nat).
(** What can be observed: calls and returns; connection [c] is bound to [k]; value [v] is pushed to [c]; [v] is taken from [c]. *)
Inductive bev :=
| ECall (t : nat) (o : bop) | ERet (t : nat) (o : bop) (a : bans)
| EBind (t k c size : nat) | EPush (t c v : nat) (g : strategy) | EPop (t c v : nat).
(** Where a thread is: not in a call; called; looking up; changing the containers; in the loop of a publication with the
    connections it still has to push to; with a pointer to the message of a connection; done but not yet returned. *)
Inductive bpc := BIdle | BWant (o : bop) | BLook (o : bop) | BChange (o : bop) | BLoop (k v : nat) (g : strategy) (rest : list nat) | BPop (c : nat) | BOut (o : bop) (a : bans).
Record bst := mkBS
  { bs_set : nat -> list nat;            (* pub_sub_message_map_: the connections of a topic; nil: no such topic *)
    bs_q : nat -> option rb;             (* conn_message_map_: the message of a connection *)
    bs_next : nat;                       (* cur_conn_id_ *)
    bs_lock : option nat;                (* pub_sub_mutex_ *)
    bs_pc : nat -> bpc;
    bs_tr : list bev }.
Definition bs_new : bst := mkBS (fun _ => []) (fun _ => None) 0 None (fun _ => BIdle) [].

(** Does a change (first) conflict with an access (second)? A bind to a new topic inserts into pub_sub_message_map_ (154), one to
    a known topic into its set (150); both insert into conn_message_map_ (156). *)
Definition conflict (s : bst) (p q : bpc) : bool :=
  match p with
  | BChange (OBind k _ _) =>
      match q with
      | BLook (OPub _ _ _) => match bs_set s k with [] => true | _ => false end
      | BLook (OSub _) => true
      | BLoop k' _ _ _ => Nat.eqb k k'
      | _ => false
      end
  | _ => false
  end.
Section N.
(** Threads are 0, ..., [N] - 1. *)
Variable N : nat.
(** Does position [p] of thread [t] conflict with where another thread is? *)
Definition race (s : bst) (t : nat) (p : bpc) : bool :=
  existsb (fun u => negb (Nat.eqb u t) && (conflict s p (bs_pc s u) || conflict s (bs_pc s u) p)) (seq 0 N).
Inductive bout := BRun (s : bst) | BUndef | BStuck.
Inductive blabel := LCall (t : nat) (o : bop) | LGo (t : nat) | LTime (t : nat).
(** Thread [t] goes to position [p], adding to the trace. *)
Definition move_to (s : bst) (t : nat) (p : bpc) (e : list bev) : bout :=
  if race s t p then BUndef else BRun (mkBS (bs_set s) (bs_q s) (bs_next s) (bs_lock s) (upd (bs_pc s) t p) (bs_tr s ++ e)).
Definition set_q (s : bst) (c : nat) (b : rb) : bst := mkBS (bs_set s) (upd (bs_q s) c (Some b)) (bs_next s) (bs_lock s) (bs_pc s) (bs_tr s).
Definition set_lock (s : bst) (l : option nat) : bst := mkBS (bs_set s) (bs_q s) (bs_next s) l (bs_pc s) (bs_tr s).
Definition bstep (s : bst) (l : blabel) : bout :=
  match l with
  | LCall t o =>
      if t <? N then match bs_pc s t with BIdle => move_to s t (BWant o) [ECall t o] | _ => BStuck end else BStuck
  | LTime t =>
      match bs_pc s t with
      | BPop c =>
          match bs_q s c with
          | None => BUndef
          | Some b => match rb_pop b with Some (_, None) => move_to s t (BOut (OSub c) BTimeout) [] | Some _ => BStuck | None => BUndef end
          end
      | _ => BStuck
      end
  | LGo t =>
      match bs_pc s t with
      | BIdle => BStuck
      | BWant o =>
          match o with
          | OBind _ _ _ =>
              (* CGRAPH_LOCK_GUARD lk(pub_sub_mutex_), 142 *)
              match bs_lock s with Some _ => BStuck | None => move_to (set_lock s (Some t)) t (BLook o) [] end
          | _ => move_to s t (BLook o) []
          end
      | BLook (OBind k size pos) => move_to s t (BChange (OBind k size pos)) []
      | BLook (OPub k v g) =>
          (* 204-210 *)
          match bs_set s k with
          | [] => move_to s t (BOut (OPub k v g) BErr) []
          | l => move_to s t (BLoop k v g l) []
          end
      | BLook (OSub c) =>
          (* 228-232 *)
          match bs_q s c with
          | None => move_to s t (BOut (OSub c) BErr) []
          | Some _ => move_to s t (BPop c) []
          end
      | BChange (OBind k size pos) =>
          (* 143-157 *)
          let c := S (bs_next s) in
          move_to (mkBS (upd (bs_set s) k (insert_at pos c (bs_set s k))) (upd (bs_q s) c (Some (rb_new size))) c (bs_lock s) (bs_pc s) (bs_tr s))
                  t (BOut (OBind k size pos) (BConn c)) [EBind t k c size]
      | BChange _ => BStuck
      | BLoop k v g [] => move_to s t (BOut (OPub k v g) BOk) []
      | BLoop k v g (c :: rest) =>
          (* msg->send, 211: the push, or its wait for room *)
          match bs_q s c with
          | None => BUndef
          | Some b =>
              match rb_push v g b with
              | None => BUndef
              | Some (_, PBlocked) => BStuck
              | Some (b', _) => move_to (set_q s c b') t (BLoop k v g rest) [EPush t c v g]
              end
          end
      | BPop c =>
          match bs_q s c with
          | None => BUndef
          | Some b =>
              match rb_pop b with
              | Some (b', Some (Some v)) => move_to (set_q s c b') t (BOut (OSub c) (BGot v)) [EPop t c v]
              | Some (_, None) => BStuck
              | _ => BUndef
              end
          end
      | BOut o a =>
          move_to (match o with OBind _ _ _ => set_lock s None | _ => s end) t BIdle [ERet t o a]
      end
  end.
Fixpoint brun (s : bst) (ls : list blabel) : bout :=
  match ls with [] => BRun s | l :: r => match bstep s l with BRun s' => brun s' r | x => x end end.
End N.
