(** Property theorems on topics. *)
From Verif Require Import MsgProofs.
From Coq Require Import Lia.
Local Open Scope nat_scope.
Local Open Scope list_scope.

(** C30: after any history of calls (publish/subscribe calls included) that did not run into undefined behaviour, every
    send/receive call answers as the topic's own bounded queue says. *)
Theorem C30_answers : forall vtype h o, sized (o :: h) -> m_after vtype h <> None -> send_recv o ->
  m_answer vtype h o = Some (expected vtype h o) /\ m_after vtype (o :: h) <> None.
Proof.
  intros vt h o Hz Hd Ho. unfold m_answer. cbn [m_after]. destruct (m_after vt h) as [s|] eqn:E; [|easy].
  destruct (sr_step vt h s o (srinv_all vt h s (sized_tl _ _ Hz) E) Hz Ho) as [s' [E' _]]. rewrite E'. easy.
Qed.
(** Histories of send/receive calls and clear never run into undefined behaviour. *)
Theorem C30_defined : forall vtype h, sized h -> (forall o, In o h -> send_recv o \/ o = MClear) -> m_after vtype h <> None.
Proof.
  intros vt h Hz Ho. assert (Hs : supported h).
  { clear Hz. induction h as [|o r IH]; [easy|]. assert (supported r) by (apply IH; intros; apply Ho; now right).
    destruct (Ho o (or_introl eq_refl)) as [H1| ->]; [destruct o; easy|easy]. }
  destruct (psinv_all vt h Hz Hs) as [s [E _]]. congruence.
Qed.
(** Calls on other topics and publish/subscribe calls leave a topic's queue alone. *)
Theorem C30_isolated : forall h o k,
  match o with MCreate k' _ _ | MRemove k' | MSend k' _ _ | MRecv k' _ => k' <> k | MClear => False | _ => True end ->
  chan (o :: h) k = chan h k.
Proof. intros h o k H. destruct o as [k' t size|k'|k' v g|k' t|k' t size pos|k' c|k' v g|c t|k'|]; cbn; try easy; destruct (Nat.eqb_spec k k'); congruence. Qed.
(** With waiting sends refused nothing is lost: what a topic holds followed by nothing is the messages sent less those received,
    in order. [sent] and [taken] only count calls since the topic was made. *)
Fixpoint sent (h : list mop) (k : nat) : list nat :=
  match h with
  | [] => []
  | MSend k' v g :: r =>
      if Nat.eqb k k' then match chan r k with Some (_, c, q) => if length q <? c - 1 then sent r k ++ [v] else sent r k | None => [] end else sent r k
  | MCreate k' _ _ :: r => if Nat.eqb k k' then match chan r k with Some _ => sent r k | None => [] end else sent r k
  | MClear :: _ => []
  | _ :: r => sent r k
  end.
Fixpoint taken (h : list mop) (k : nat) : nat :=
  match h with
  | [] => 0
  | MRecv k' _ :: r => if Nat.eqb k k' then match chan r k with Some (_, _, _ :: _) => S (taken r k) | _ => taken r k end else taken r k
  | MCreate k' _ _ :: r => if Nat.eqb k k' then match chan r k with Some _ => taken r k | None => 0 end else taken r k
  | MClear :: _ => 0
  | _ :: r => taken r k
  end.
Theorem C30_fifo : forall h k t c q, (forall k' v, ~ In (MSend k' v SReplace) h) -> chan h k = Some (t, c, q) ->
  q = skipn (taken h k) (sent h k) /\ taken h k <= length (sent h k).
Proof.
  induction h as [|o r IH]; intros k t c q Hr E; [discriminate|].
  assert (Hr' : forall k' v, ~ In (MSend k' v SReplace) r) by (intros k' v Hi; apply (Hr k' v); now right).
  destruct o as [k' t' size|k'|k' v g|k' t'|k' t' size pos|k' c'|k' v g|c' t'|k'|]; cbn [chan sent taken] in *; try (now apply (IH k t c q)); [..|discriminate].
  - destruct (Nat.eqb_spec k k') as [<-|]; [|now apply (IH k t c q)]. destruct (chan r k) as [[[t0 c0] q0]|] eqn:E0; [injection E as <- <- <-; now apply (IH k t0 c0 q0)|].
    injection E as <- <- <-. easy.
  - destruct (Nat.eqb_spec k k') as [<-|]; [discriminate|]. now apply (IH k t c q).
  - destruct (Nat.eqb_spec k k') as [<-|]; [|now apply (IH k t c q)]. destruct (chan r k) as [[[t0 c0] q0]|] eqn:E0; [|discriminate]. injection E as <- <- <-.
    destruct (IH k t0 c0 q0 Hr' E0) as [H1 H2]. unfold q_push. destruct (length q0 <? c0 - 1).
    + rewrite app_length. cbn [length]. split; [|lia]. rewrite skipn_app, <- H1. replace (taken r k - length (sent r k)) with 0 by lia. easy.
    + destruct g; [easy| |easy]. exfalso. apply (Hr k v). now left.
  - destruct (Nat.eqb_spec k k') as [<-|]; [|now apply (IH k t c q)]. destruct (chan r k) as [[[t0 c0] q0]|] eqn:E0; [|discriminate]. injection E as <- <- <-.
    destruct (IH k t0 c0 q0 Hr' E0) as [H1 H2]. destruct q0 as [|x q0]; [easy|]. cbn [tl].
    assert (Hlt : taken r k < length (sent r k)).
    { destruct (Nat.lt_ge_cases (taken r k) (length (sent r k))) as [|Hge]; [easy|]. rewrite skipn_all2 in H1 by lia. discriminate. }
    split; [|lia]. clear - H1. revert H1. generalize (taken r k) (sent r k). induction n as [|n IHn]; intros l H1.
    + cbn in H1. subst l. easy.
    + destruct l as [|y l]; [discriminate|]. cbn in H1 |- *. now apply IHn.
Qed.
Definition msg_h : list mop := [MRecv 1 0; MSend 2 9 SWait; MSend 1 6 SDrop; MSend 1 5 SDrop; MPub 1 8 SDrop; MBind 1 0 4 0; MCreate 2 0 4; MCreate 1 0 3].
Example C30_case : sized (MRecv 1 0 :: msg_h) /\ m_after (fun _ => 0) msg_h <> None /\ m_answer (fun _ => 0) msg_h (MRecv 1 0) = Some (MGot 6) /\
  m_answer (fun _ => 0) msg_h (MRecv 3 0) = Some MErr /\ m_answer (fun _ => 0) (MRecv 1 0 :: msg_h) (MRecv 1 0) = Some MTimeout /\
  m_answer (fun _ => 0) msg_h (MCreate 1 1 3) = Some MErr /\ m_answer (fun _ => 0) msg_h (MSub 1 0) = Some (MGot 8) /\
  chan msg_h 1 = Some (0, 3, [6]) /\ taken msg_h 1 = 1 /\ sent msg_h 1 = [5; 6].
Proof. split; [intros o Ho; cbn in Ho; intuition (subst; cbn; lia)|]. vm_compute. easy. Qed.
Print Assumptions C30_answers. Print Assumptions C30_defined. Print Assumptions C30_isolated. Print Assumptions C30_fifo.

(** C63, refuted: for any two types, a receive with a type other than that of the message sent is answered OK with a pointer of
    the wrong type; so is a subscribe. *)
Theorem C63_typed_refuted : forall vtype v t, vtype v <> t ->
  m_answer vtype [MSend 0 v SWait; MCreate 0 (vtype v) 2] (MRecv 0 t) = Some (MConfused v) /\
  m_answer vtype [MPub 0 v SDrop; MBind 0 (vtype v) 2 0] (MSub 1 t) = Some (MConfused v).
Proof. intros vt v t H. apply Nat.eqb_neq in H. cbn. rewrite H. easy. Qed.
(** C63, what holds: a value is handed out with the wrong type only to a receive whose type is not that of the value; if all
    sends to and receives from a topic use the type it was made with, no receive on it is confused. *)
Theorem C63_typed_partial : forall vtype h k t, sized h -> m_after vtype h <> None ->
  (forall c q, chan h k = Some (t, c, q) -> (forall v g, In (MSend k v g) h -> vtype v = t) -> forall v, m_answer vtype h (MRecv k t) <> Some (MConfused v)) /\
  (forall v, m_answer vtype h (MRecv k t) = Some (MConfused v) -> vtype v <> t /\ exists t' c q, chan h k = Some (t', c, v :: q)) /\
  (forall v, m_answer vtype h (MRecv k t) = Some (MGot v) -> vtype v = t /\ exists t' c q, chan h k = Some (t', c, v :: q)).
Proof.
  intros vt h k t Hz Hd.
  assert (Hz' : sized (MRecv k t :: h)) by (intros o [<-|Ho]; [easy|now apply Hz]).
  destruct (C30_answers vt h (MRecv k t) Hz' Hd I) as [Ha _]. rewrite Ha. cbn [expected]. split; [|split].
  - intros c q E Hs v. rewrite E. destruct q as [|x q]; [discriminate|].
    assert (Hx : vt x = t).
    { assert (Hq : forall h t c q, chan h k = Some (t, c, q) -> forall x, In x q -> exists g, In (MSend k x g) h).
      { clear. induction h as [|o r IH]; intros t c q E x Hx; [discriminate|].
        assert (Hrec : forall q', chan r k = Some (t, c, q') -> In x q' -> exists g, In (MSend k x g) (o :: r)) by (intros q' E' Hi; destruct (IH t c q' E' x Hi) as [g Hg]; exists g; now right).
        destruct o as [k' t' size|k'|k' v g|k' t'|k' t' size pos|k' c'|k' v g|c' t'|k'|]; cbn [chan] in E; try (now apply (Hrec q)).
        - destruct (Nat.eqb_spec k k') as [<-|]; [|now apply (Hrec q)]. destruct (chan r k) as [[[t0 c0] q0]|]; [injection E as <- <- <-; now apply (Hrec q0)|]. injection E as <- <- <-. easy.
        - destruct (Nat.eqb_spec k k') as [<-|]; [discriminate|now apply (Hrec q)].
        - destruct (Nat.eqb_spec k k') as [<-|]; [|now apply (Hrec q)]. destruct (chan r k) as [[[t0 c0] q0]|]; [|discriminate]. injection E as <- <- <-.
          assert (Hx' : In x q0 \/ x = v).
          { unfold q_push in Hx. destruct (length q0 <? c0 - 1); [apply in_app_iff in Hx; cbn in Hx; intuition|]. destruct g; [now left| |now left].
            apply in_app_iff in Hx. destruct Hx as [Hx|[->|[]]]; [|now right]. left. destruct q0; [easy|now right]. }
          destruct Hx' as [Hi| ->]; [now apply (Hrec q0)|]. exists g. now left.
        - destruct (Nat.eqb_spec k k') as [<-|]; [|now apply (Hrec q)]. destruct (chan r k) as [[[t0 c0] q0]|]; [|discriminate]. injection E as <- <- <-.
          apply (Hrec q0 eq_refl). destruct q0; [easy|now right]. }
      destruct (Hq h t c (x :: q) E x (or_introl eq_refl)) as [g Hg]. now apply (Hs x g). }
    rewrite Hx, Nat.eqb_refl. discriminate.
  - intros v E. destruct (chan h k) as [[[t' c] [|x q]]|]; try discriminate. destruct (Nat.eqb_spec (vt x) t); [discriminate|]. injection E as <-. split; [easy|]. now exists t', c, q.
  - intros v E. destruct (chan h k) as [[[t' c] [|x q]]|]; try discriminate. destruct (Nat.eqb_spec (vt x) t); [|discriminate]. injection E as <-. split; [easy|]. now exists t', c, q.
Qed.
Example C63_case : m_answer (fun v => Nat.modulo v 2) [MSend 0 4 SWait; MCreate 0 0 2] (MRecv 0 0) = Some (MGot 4) /\
  m_answer (fun v => Nat.modulo v 2) [MSend 0 4 SWait; MCreate 0 0 2] (MRecv 0 1) = Some (MConfused 4).
Proof. now vm_compute. Qed.
Print Assumptions C63_typed_refuted. Print Assumptions C63_typed_partial.

(** C31, refuted. Whatever the types and messages: once a connection is detached, publishing to its topic, dropping the topic,
    clearing the manager (also at exit) and detaching another connection that sorts after it touch freed memory; reading a
    connection of a dropped topic does too; a WAIT publish stops at the first full connection, so the later ones get nothing;
    a connection id given out before a clear is given out again after it. *)
Theorem C31_pubsub_refuted : forall vtype t v,
  m_answer vtype [MDetach 0 1; MBind 0 t 2 0] (MPub 0 v SDrop) = None /\
  m_answer vtype [MDetach 0 1; MBind 0 t 2 0] (MDrop 0) = None /\
  m_answer vtype [MDetach 0 1; MBind 0 t 2 0] MClear = None /\
  m_answer vtype [MDetach 0 1; MBind 0 t 2 1; MBind 0 t 2 0] (MDetach 0 2) = None /\
  m_answer vtype [MDrop 0; MBind 0 t 2 0] (MSub 1 t) = None /\
  (let h := [MPub 0 v SWait; MBind 0 t 2 1; MPub 0 v SWait; MBind 0 t 2 0] in
   m_answer vtype (tl h) (MPub 0 v SWait) = Some MBlocked /\ m_answer vtype h (MSub 2 t) = Some MTimeout) /\
  m_answer vtype [] (MBind 0 t 2 0) = Some (MConn 1) /\ m_answer vtype [MClear; MBind 0 t 2 0] (MBind 5 t 2 0) = Some (MConn 1).
Proof. intros vt t v. cbn. easy. Qed.
(** Detaching is never safe: after any supported history, detaching a live connection leaves a manager that touches freed memory
    when it is next cleared or destroyed, when the topic is next dropped, and when the topic is next published to. *)
Theorem C31_detach_refuted : forall vtype h k n q c, sized h -> supported h -> conn h c = Some (k, n, q) ->
  m_answer vtype h (MDetach k c) = Some MOk /\
  m_answer vtype (MDetach k c :: h) MClear = None /\ m_answer vtype (MDetach k c :: h) (MDrop k) = None /\
  (forall v g, g <> SWait -> m_answer vtype (MDetach k c :: h) (MPub k v g) = None).
Proof.
  intros vt h k n q c Hz Hs Ec. destruct (psinv_all vt h Hz Hs) as [s [E H]].
  destruct (pv_live _ _ H c k n q Ec) as [Hn [a [b [l [D1 [D2 [D3 [D4 D5]]]]]]]].
  assert (Hd : detach_loop c l s = Some (mkMS (ms_sr s) (upd (ms_heap s) a None) (ms_ps s) (upd (ms_conn s) c None) (ms_next s) (ms_addr s))).
  { assert (Hi : forall x, In x l -> In x l) by easy. revert Hi D5. generalize l at 1 3 4. induction l0 as [|x r IH]; intros Hi D5; [easy|]. cbn [detach_loop].
    destruct (set_live h s k l x H D4 (Hi x (or_introl eq_refl))) as [c' [b' [n' [q' [C1 [C2 [C3 _]]]]]]]. rewrite C3.
    destruct (Nat.eqb_spec c c') as [<-|Hne].
    - assert (x = a) by congruence. now subst.
    - apply IH; [intros y Hy; apply Hi; now right|]. destruct D5 as [->|D5]; [|easy]. exfalso. apply Hne. congruence. }
  unfold m_answer. rewrite E. cbn [m_step m_after]. rewrite E. cbn [m_step]. unfold m_detach. rewrite D4, Hd. split; [easy|].
  unfold m_clear, m_drop, m_pub. cbn [ms_ps ms_heap]. rewrite D4.
  assert (Hf : forall l hp, In a l -> hp a = None -> free_all l hp = None).
  { clear. induction l as [|x r IH]; intros hp Hi Ha; [easy|]. cbn. destruct Hi as [->|Hi]; [now rewrite Ha|]. destruct (hp x); [|easy]. apply IH; [easy|].
    unfold upd. now destruct (Nat.eqb a x). }
  rewrite (Hf (concat (map snd (ms_ps s)))).
  2:{ apply in_concat. exists l. split; [|easy]. apply tfind_in in D4. apply in_map_iff. now exists (k, l). }
  2:{ now rewrite upd_same. }
  rewrite (Hf l) by (easy || now rewrite upd_same). do 2 (split; [easy|]). intros v g Hg.
  assert (Hp : forall l0 hp, (forall x, In x l0 -> In x l) -> NoDup l0 -> In a l0 -> hp a = None -> (forall x, In x l0 -> x <> a -> hp x = ms_heap s x) -> pub_loop v g l0 hp = None).
  { induction l0 as [|x r IH]; intros hp Hi Hnd Ha Hh Ho; [easy|]. cbn [pub_loop]. destruct (Nat.eq_dec x a) as [->|Hne]; [now rewrite Hh|].
    inversion Hnd; subst. rewrite (Ho x (or_introl eq_refl) Hne). destruct (set_live h s k l x H D4 (Hi x (or_introl eq_refl))) as [c' [b' [n' [q' [_ [_ [C3 [C4 C5]]]]]]]]. rewrite C3.
    destruct (rb_push_rep n' q' b' v g C5 C4) as [b2 [E1 _]]. rewrite E1.
    assert (Hr : pub_loop v g r (upd hp x (Some (c', b2))) = None).
    { apply IH; [intros y Hy; apply Hi; now right|easy|destruct Ha; congruence|now rewrite upd_other by congruence|].
      intros y Hy Hya. rewrite upd_other by (intros ->; contradiction). apply Ho; [now right|easy]. }
    cbn [q_answer]. destruct (length q' <? n' - 1); [exact Hr|]. destruct g; easy. }
  rewrite (Hp l (upd (ms_heap s) a None)); [easy|easy|now apply (pv_nodup _ _ H k)|easy|now rewrite upd_same|]. intros x _ Hx. now rewrite upd_other.
Qed.
(** C31, what holds: in histories without a hit of detach, without reads of dropped connections and without WAIT publishes,
    nothing freed is touched, every call answers as the per-connection bounded queues of [conn] say, and a bind gives out an id
    not in use since the last clear. *)
Theorem C31_pubsub_partial : forall vtype h o, sized (o :: h) -> supported (o :: h) ->
  m_answer vtype h o = Some (expected vtype h o) /\ m_after vtype (o :: h) <> None /\ conn h (S (nbind h)) = None.
Proof.
  intros vt h o Hz Hs. destruct (psinv_all vt h (sized_tl _ _ Hz) (supported_tl vt _ _ Hs)) as [s [E I]].
  destruct (ps_step vt h s o I (srinv_all vt h s (sized_tl _ _ Hz) E) Hz Hs) as [s' [E' _]]. unfold m_answer. cbn [m_after]. rewrite E, E'.
  do 2 (split; [easy|]). destruct (conn h (S (nbind h))) as [x|] eqn:Ec; [|easy]. apply conn_range in Ec. lia.
Qed.
(** Every connection bound to the topic gets the published value at the end of its queue, the others nothing. *)
Theorem C31_delivery_partial : forall h k v g c k' n q, conn h c = Some (k', n, q) ->
  conn (MPub k v g :: h) c = Some (k', n, if Nat.eqb k k' then q_push n v g q else q).
Proof. intros h k v g c k' n q E. cbn. now rewrite E. Qed.
(** Calls on other connections do not touch a connection. *)
Theorem C31_isolated_partial : forall h c x o, conn h c = Some x ->
  match o with MSub c' _ => c' <> c | MPub k _ _ | MDrop k => k <> fst (fst x) | MClear => False | _ => True end ->
  conn (o :: h) c = Some x.
Proof.
  intros h c [[k n] q] o E H. destruct o as [k' t size|k'|k' v g|k' t|k' t size pos|k' c'|k' v g|c' t|k'|]; cbn in *; try easy; rewrite ?E.
  - apply conn_range in E. destruct (Nat.eqb_spec c (S (nbind h))); [lia|easy].
  - destruct (Nat.eqb_spec k' k); congruence.
  - destruct (Nat.eqb_spec c c'); congruence.
  - destruct (Nat.eqb_spec k' k); congruence.
Qed.
Definition msg_p : list mop := [MSub 1 0; MPub 0 8 SReplace; MPub 0 7 SReplace; MBind 1 0 4 0; MBind 0 0 3 0; MBind 0 0 2 0].
Example C31_case : sized (MSub 2 0 :: msg_p) /\ supported (MSub 2 0 :: msg_p) /\ m_answer (fun _ => 0) msg_p (MSub 2 0) = Some (MGot 7) /\
  m_answer (fun _ => 0) msg_p (MSub 1 0) = Some MTimeout /\ m_answer (fun _ => 0) msg_p (MSub 3 0) = Some MTimeout /\ conn msg_p 2 = Some (0, 3, [7; 8]).
Proof. split; [intros o Ho; cbn in Ho; intuition (subst; cbn; lia)|]. split; [cbn; intuition congruence|]. now vm_compute. Qed.
(** C61 with the manager: the first message to a topic or a connection of size zero is undefined; one of size one never hands out a message and a waiting send or publish to it does not return. *)
Theorem C61_topics_refuted : forall vtype k t v g pos,
  m_answer vtype [MCreate k t 0] (MSend k v g) = None /\ m_answer vtype [MBind k t 0 pos] (MPub k v g) = None /\
  m_answer vtype [MCreate k t 1] (MSend k v SWait) = Some MBlocked /\ m_answer vtype [MBind k t 1 pos] (MPub k v SWait) = Some MBlocked /\
  m_answer vtype [MSend k v SReplace; MCreate k t 1] (MRecv k t) = Some MTimeout /\ m_answer vtype [MPub k v SReplace; MBind k t 1 pos] (MSub 1 t) = Some MTimeout /\
  m_answer vtype [MSend k v SDrop; MCreate k t 1] (MRecv k t) = Some MTimeout /\ m_answer vtype [MPub k v SDrop; MBind k t 1 pos] (MSub 1 t) = Some MTimeout.
Proof.
  intros vt k t v g pos. assert (X : insert_at pos 0 [] = [0]) by (unfold insert_at; now rewrite firstn_nil, skipn_nil).
  repeat split; unfold m_answer; cbn [m_after]; unfold m_step; unfold m_create, m_bind, m_send, m_pub, m_recv, m_sub, set_sr, set_heap, tset, terase;
    cbn [ms_new ms_sr ms_ps ms_heap ms_conn ms_next ms_addr tfind filter fst]; rewrite ?X, ?Nat.eqb_refl; cbn [negb filter]; rewrite ?Nat.eqb_refl; cbn; rewrite ?Nat.eqb_refl; reflexivity.
Qed.
Print Assumptions C61_topics_refuted.
Print Assumptions C31_pubsub_refuted. Print Assumptions C31_detach_refuted. Print Assumptions C31_pubsub_partial.
Print Assumptions C31_delivery_partial. Print Assumptions C31_isolated_partial.
