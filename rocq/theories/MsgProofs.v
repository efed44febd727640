(** Proofs about topics. *)
From Verif Require Export MsgSpec RingProofs.
From Coq Require Import Lia.
Local Open Scope nat_scope.
Local Open Scope list_scope.

Lemma tfind_erase {A} k k' (m : list (nat * A)) : tfind k' (terase k m) = if Nat.eqb k' k then None else tfind k' m.
Proof.
  induction m as [|[x q] r IH]; cbn [terase filter tfind fst]; [now destruct (Nat.eqb k' k)|].
  destruct (Nat.eqb_spec x k) as [->|Hx]; cbn [negb].
  - change (filter (fun e => negb (Nat.eqb (fst e) k)) r) with (terase k r). rewrite IH. now destruct (Nat.eqb k' k).
  - cbn [tfind]. change (filter (fun e => negb (Nat.eqb (fst e) k)) r) with (terase k r). rewrite IH.
    destruct (Nat.eqb_spec k' x) as [->|]; [|easy]. destruct (Nat.eqb_spec x k); congruence.
Qed.
Lemma tfind_set {A} k k' (x : A) m : tfind k' (tset k x m) = if Nat.eqb k' k then Some x else tfind k' m.
Proof. unfold tset. cbn [tfind]. destruct (Nat.eqb_spec k' k) as [->|Hne]; [easy|]. rewrite tfind_erase. destruct (Nat.eqb_spec k' k); [congruence|easy]. Qed.
Lemma terase_nodup {A} k (m : list (nat * A)) : NoDup (map fst m) -> NoDup (map fst (terase k m)) /\ ~ In k (map fst (terase k m)).
Proof.
  intros H. split.
  - induction m as [|[x q] r IH]; cbn [terase filter map fst]; [constructor|]. inversion H; subst.
    change (filter (fun e => negb (Nat.eqb (fst e) k)) r) with (terase k r).
    destruct (negb _); [|auto]. cbn [map fst]. constructor; [|auto].
    intros Hi. apply H2. apply in_map_iff in Hi. destruct Hi as [[a b] [<- Hi]]. apply filter_In in Hi. apply in_map_iff. exists (a, b). easy.
  - intros Hi. apply in_map_iff in Hi. destruct Hi as [[a b] [Ea Hi]]. apply filter_In in Hi. destruct Hi as [_ Hi]. cbn in *. subst. now rewrite Nat.eqb_refl in Hi.
Qed.
Lemma tfind_in {A} k (m : list (nat * A)) x : tfind k m = Some x -> In (k, x) m.
Proof. induction m as [|[k' q] r IH]; cbn; [discriminate|]. destruct (Nat.eqb_spec k k') as [->|]; intros H; [injection H as ->; now left|right; auto]. Qed.
Lemma in_tfind {A} k (m : list (nat * A)) x : NoDup (map fst m) -> In (k, x) m -> tfind k m = Some x.
Proof.
  induction m as [|[k' q] r IH]; cbn; [easy|]. intros Hn Hi. inversion Hn; subst. destruct Hi as [E|Hi].
  - injection E as -> ->. now rewrite Nat.eqb_refl.
  - destruct (Nat.eqb_spec k k') as [->|]; [|auto]. exfalso. apply H1. now apply (in_map fst) in Hi.
Qed.

Section MsgProofs.
Variable vtype : nat -> nat.
Notation m_step := (m_step vtype).
Notation m_after := (m_after vtype).
Notation m_answer := (m_answer vtype).
Notation expected := (expected vtype).

(** * Send/receive *)
Definition srinv (h : list mop) (s : mst) : Prop := forall k,
  match chan h k with
  | None => tfind k (ms_sr s) = None
  | Some (t, c, q) => 2 <= c /\ exists b, tfind k (ms_sr s) = Some (t, b) /\ rep c q b
  end.
Lemma pop_rep c q b : 2 <= c -> rep c q b ->
  match q with
  | [] => rb_pop b = Some (b, None)
  | x :: r => exists b', rb_pop b = Some (b', Some (Some x)) /\ rep c r b'
  end.
Proof.
  intros Hc R. unfold rb_pop. rewrite (rep_empty c q b) by (lia || easy). destruct q as [|x r]; cbn [length Nat.eqb]; [easy|].
  destruct (rep_take c x r b R) as [b' [E R']]. exists b'. now rewrite E.
Qed.
Lemma sr_step h s o : srinv h s -> sized (o :: h) -> send_recv o ->
  exists s', m_step s o = Some (s', expected h o) /\ srinv (o :: h) s' /\
    ms_heap s' = ms_heap s /\ ms_ps s' = ms_ps s /\ ms_conn s' = ms_conn s /\ ms_next s' = ms_next s /\ ms_addr s' = ms_addr s.
Proof.
  intros H Hs Ho. destruct o as [k t size|k|k v g|k t|k t size pos|k c|k v g|c t|k|]; try easy; cbn [m_step MsgModel.m_step expected MsgSpec.expected].
  - unfold m_create. pose proof (H k) as Hk. destruct (chan h k) as [[[t' c] q]|] eqn:Ec.
    + destruct Hk as [Hc [b [E R]]]. rewrite E, (r_cap _ _ _ R). eexists. split; [reflexivity|]. split; [|easy].
      intros k'. cbn [chan]. destruct (Nat.eqb_spec k' k) as [->|Hne]; [|apply H]. rewrite Ec. split; [easy|]. now exists b.
    + rewrite Hk. eexists. split; [reflexivity|]. split; [|easy]. intros k'. cbn [chan ms_sr set_sr].
      specialize (H k'). destruct (Nat.eqb_spec k' k) as [->|Hne].
      * rewrite Ec. specialize (Hs _ (or_introl eq_refl)). cbn in Hs. split; [easy|]. exists (rb_new size). rewrite tfind_set, Nat.eqb_refl.
        split; [easy|]. apply rep_new. lia.
      * rewrite tfind_set. destruct (Nat.eqb_spec k' k); [congruence|easy].
  - unfold m_remove. pose proof (H k) as Hk. destruct (chan h k) as [[[t' c] q]|] eqn:Ec.
    + destruct Hk as [Hc [b [E R]]]. rewrite E. eexists. split; [reflexivity|]. split; [|easy]. intros k'. cbn [chan ms_sr set_sr].
      rewrite tfind_erase. destruct (Nat.eqb_spec k' k) as [->|Hne]; [easy|apply H].
    + rewrite Hk. eexists. split; [reflexivity|]. split; [|easy]. intros k'. cbn [chan]. destruct (Nat.eqb_spec k' k) as [->|Hne]; [easy|apply H].
  - unfold m_send. pose proof (H k) as Hk. destruct (chan h k) as [[[t' c] q]|] eqn:Ec.
    + destruct Hk as [Hc [b [E R]]]. rewrite E. destruct (rb_push_rep c q b v g Hc R) as [b' [E1 R1]]. rewrite E1. cbn [q_answer].
      assert (Ea : push_ans (if length q <? c - 1 then PStored else match g with SWait => PBlocked | SReplace => PStored | SDrop => PDropped end) =
                   (if length q <? c - 1 then MOk else match g with SWait => MBlocked | _ => MOk end)) by (destruct (length q <? c - 1), g; easy).
      rewrite Ea. eexists. split; [reflexivity|]. split; [|easy]. intros k'. cbn [chan ms_sr set_sr].
      rewrite tfind_set. specialize (H k'). destruct (Nat.eqb_spec k' k) as [->|Hne]; [|easy]. rewrite Ec. split; [easy|]. now exists b'.
    + rewrite Hk. eexists. split; [reflexivity|]. split; [|easy]. intros k'. cbn [chan]. destruct (Nat.eqb_spec k' k) as [->|Hne]; [|apply H]. now rewrite Ec.
  - unfold m_recv. pose proof (H k) as Hk. destruct (chan h k) as [[[t' c] q]|] eqn:Ec.
    + destruct Hk as [Hc [b [E R]]]. rewrite E. pose proof (pop_rep c q b Hc R) as Hp. destruct q as [|x q].
      * rewrite Hp. eexists. split; [reflexivity|]. split; [|easy]. intros k'. cbn [chan]. specialize (H k'). destruct (Nat.eqb_spec k' k) as [->|Hne]; [|easy].
        rewrite Ec. split; [easy|]. now exists b.
      * destruct Hp as [b' [E1 R1]]. rewrite E1. cbn [got]. eexists. split; [reflexivity|]. split; [|easy]. intros k'. cbn [chan ms_sr set_sr].
        rewrite tfind_set. specialize (H k'). destruct (Nat.eqb_spec k' k) as [->|Hne]; [|easy]. rewrite Ec. split; [easy|]. now exists b'.
    + rewrite Hk. eexists. split; [reflexivity|]. split; [|easy]. intros k'. cbn [chan]. destruct (Nat.eqb_spec k' k) as [->|Hne]; [|apply H]. now rewrite Ec.
Qed.
Lemma detach_sr c : forall l s s', detach_loop c l s = Some s' -> ms_sr s' = ms_sr s.
Proof.
  induction l as [|a r IH]; intros s s' E; cbn in E; [now injection E as <-|]. destruct (ms_heap s a) as [[c' b]|]; [|discriminate].
  destruct (Nat.eqb c c'); [now injection E as <-|auto].
Qed.
(** Publish/subscribe calls leave the send/receive topics alone. *)
Lemma ps_step_sr h s o s' a : ~ send_recv o -> m_step s o = Some (s', a) -> srinv h s -> srinv (o :: h) s'.
Proof.
  intros Ho E H. destruct o as [k t size|k|k v g|k t|k t size pos|k c|k v g|c t|k|]; cbn in Ho; try tauto; cbn [MsgModel.m_step] in E.
  - injection E as <- _. intros k'. apply H.
  - unfold m_detach in E. destruct (tfind k (ms_ps s)) as [l|]; [|injection E as <- _; exact H].
    destruct (detach_loop c l s) as [s1|] eqn:E1; [|discriminate]. injection E as <- _. intros k'. cbn [chan]. rewrite (detach_sr c l s s1 E1). apply H.
  - unfold m_pub in E. destruct (tfind k (ms_ps s)) as [l|]; [|injection E as <- _; exact H].
    destruct (pub_loop v g l (ms_heap s)) as [[hp bl]|]; [|discriminate]. injection E as <- _. exact H.
  - unfold m_sub in E. destruct (ms_conn s c) as [a0|]; [|injection E as <- _; exact H]. destruct (ms_heap s a0) as [[c' b]|]; [|discriminate].
    destruct (rb_pop b) as [[b' [x|]]|]; [|injection E as <- _; exact H|discriminate]. destruct (got vtype t x); [|discriminate]. injection E as <- _. exact H.
  - unfold m_drop in E. destruct (tfind k (ms_ps s)) as [l|]; [|injection E as <- _; exact H].
    destruct (free_all l (ms_heap s)); [|discriminate]. injection E as <- _. exact H.
  - unfold m_clear in E. destruct (free_all _ _); [|discriminate]. injection E as <- _. intros k'. easy.
Qed.
Lemma sized_tl o h : sized (o :: h) -> sized h.
Proof. intros H x Hx. apply H. now right. Qed.
Lemma srinv_all : forall h s, sized h -> m_after h = Some s -> srinv h s.
Proof.
  induction h as [|o r IH]; intros s Hs E; cbn [MsgModel.m_after] in E; [injection E as <-; easy|].
  destruct (m_after r) as [s0|] eqn:E0; [|discriminate]. destruct (m_step s0 o) as [[s1 a]|] eqn:E1; [|discriminate]. injection E as <-.
  specialize (IH s0 (sized_tl _ _ Hs) eq_refl). assert (Hd : send_recv o \/ ~ send_recv o) by (destruct o; cbn; tauto). destruct Hd as [Ho|Ho].
  - destruct (sr_step r s0 o IH Hs Ho) as [s' [E2 [I _]]]. rewrite E1 in E2. injection E2 as <- _. easy.
  - now apply (ps_step_sr r s0 o s1 a).
Qed.

(** * Publish/subscribe *)
Lemma conn_range : forall h c x, conn h c = Some x -> 1 <= c <= nbind h.
Proof.
  induction h as [|o r IH]; intros c x E; [discriminate|]. destruct o as [k t size|k|k v g|k t|k t size pos|k c0|k v g|c0 t|k|]; cbn in *; try (now apply (IH c x)).
  - destruct (Nat.eqb_spec c (S (nbind r))) as [->|]; [lia|]. apply IH in E. lia.
  - destruct (conn r c) as [[[k' n] q]|] eqn:E'; [|discriminate]. now apply (IH c (k', n, q)).
  - destruct (conn r c) as [[[k' n] q]|] eqn:E'; [|discriminate]. now apply (IH c (k', n, q)).
  - destruct (conn r c) as [[[k' n] q]|] eqn:E'; [|discriminate]. now apply (IH c (k', n, q)).
  - discriminate.
Qed.
Record psinv (h : list mop) (s : mst) : Prop := mk_ps
  { pv_next : ms_next s = nbind h;
    pv_known : forall k, known h k = match tfind k (ms_ps s) with Some _ => true | None => false end;
    pv_conn : forall c, (exists a, ms_conn s c = Some a) <-> 1 <= c <= nbind h;
    pv_live : forall c k n q, conn h c = Some (k, n, q) ->
      2 <= n /\ exists a b l, ms_conn s c = Some a /\ ms_heap s a = Some (c, b) /\ rep n q b /\ tfind k (ms_ps s) = Some l /\ In a l;
    pv_set : forall k l a, tfind k (ms_ps s) = Some l -> In a l -> exists c n q, conn h c = Some (k, n, q) /\ ms_conn s c = Some a;
    pv_nodup : forall k l, tfind k (ms_ps s) = Some l -> NoDup l;
    pv_dead : forall c a, ms_conn s c = Some a -> conn h c = None -> ms_heap s a = None;
    pv_inj : forall c c' a, ms_conn s c = Some a -> ms_conn s c' = Some a -> c = c';
    pv_addr : forall a, ms_addr s <= a -> ms_heap s a = None;
    pv_caddr : forall c a, ms_conn s c = Some a -> a < ms_addr s;
    pv_keys : NoDup (map fst (ms_ps s)) }.
Lemma psinv_new : psinv [] ms_new.
Proof.
  constructor; cbn; try easy.
  - intros c. split; [intros [a H]; discriminate|lia].
  - constructor.
Qed.
Lemma pv_disj h s k l k' l' a : psinv h s -> tfind k (ms_ps s) = Some l -> tfind k' (ms_ps s) = Some l' -> In a l -> In a l' -> k = k'.
Proof.
  intros H E E' Hi Hi'. destruct (pv_set _ _ H k l a E Hi) as [c [n [q [C1 C2]]]]. destruct (pv_set _ _ H k' l' a E' Hi') as [c' [n' [q' [C1' C2']]]].
  rewrite (pv_inj _ _ H c c' a C2 C2') in C1. congruence.
Qed.
Lemma pub_spec v g : g <> SWait -> forall l hp, NoDup l ->
  (forall a, In a l -> exists c b n q, hp a = Some (c, b) /\ rep n q b /\ 2 <= n) ->
  exists hp', pub_loop v g l hp = Some (hp', false) /\ (forall a, ~ In a l -> hp' a = hp a) /\
    (forall a c b n q, In a l -> hp a = Some (c, b) -> rep n q b -> 2 <= n -> exists b', hp' a = Some (c, b') /\ rep n (q_push n v g q) b').
Proof.
  intros Hg. induction l as [|a r IH]; intros hp Hn Hl; cbn [pub_loop].
  - exists hp. easy.
  - inversion Hn; subst. destruct (Hl a (or_introl eq_refl)) as [c [b [n [q [E [R Hz]]]]]]. rewrite E.
    destruct (rb_push_rep n q b v g Hz R) as [b' [E1 R1]]. rewrite E1. cbn [q_answer].
    destruct (IH (upd hp a (Some (c, b'))) H2) as [hp' [E2 [F1 F2]]].
    { intros x Hx. rewrite upd_other by (intros ->; contradiction). apply Hl. now right. }
    assert (Hp : match (if length q <? n - 1 then PStored else match g with SWait => PBlocked | SReplace => PStored | SDrop => PDropped end) with PBlocked => False | _ => True end) by (destruct (length q <? n - 1), g; easy).
    exists hp'. split; [|split].
    + destruct (if length q <? n - 1 then _ else _); [exact E2|exact E2|easy].
    + intros x Hx. rewrite F1 by (intros Hi; apply Hx; now right). rewrite upd_other; [easy|]. intros ->. apply Hx. now left.
    + intros x c0 b0 n0 q0 [<-|Hx] Ex R0 Hz0.
      * rewrite E in Ex. injection Ex as <- <-. rewrite F1 by easy. rewrite upd_same. exists b'. split; [easy|].
        destruct (rb_push_rep n0 q0 b v g Hz0 R0) as [b'' [E3 R3]]. rewrite E1 in E3. injection E3 as <- _. easy.
      * apply (F2 x c0 b0 n0 q0 Hx); [|easy|easy]. rewrite upd_other by (intros ->; contradiction). easy.
Qed.
Lemma free_spec : forall l hp, NoDup l -> (forall a, In a l -> hp a <> None) ->
  exists hp', free_all l hp = Some hp' /\ (forall a, In a l -> hp' a = None) /\ (forall a, ~ In a l -> hp' a = hp a).
Proof.
  induction l as [|a r IH]; intros hp Hn Hl; cbn [free_all].
  - exists hp. easy.
  - inversion Hn; subst. destruct (hp a) as [x|] eqn:E; [|now apply (Hl a (or_introl eq_refl)) in E].
    destruct (IH (upd hp a None) H2) as [hp' [E2 [F1 F2]]].
    { intros y Hy. rewrite upd_other by (intros ->; contradiction). apply Hl. now right. }
    exists hp'. split; [easy|]. split.
    + intros y [<-|Hy]; [|now apply F1]. rewrite F2 by easy. now rewrite upd_same.
    + intros y Hy. rewrite F2 by (intros Hi; apply Hy; now right). rewrite upd_other; [easy|]. intros ->. apply Hy. now left.
Qed.
Lemma set_live h s k l a : psinv h s -> tfind k (ms_ps s) = Some l -> In a l ->
  exists c b n q, conn h c = Some (k, n, q) /\ ms_conn s c = Some a /\ ms_heap s a = Some (c, b) /\ rep n q b /\ 2 <= n.
Proof.
  intros H E Hi. destruct (pv_set _ _ H k l a E Hi) as [c [n [q [C1 C2]]]]. destruct (pv_live _ _ H c k n q C1) as [Hz [a' [b [l' [D1 [D2 [D3 _]]]]]]].
  assert (a' = a) by congruence. subst a'. now exists c, b, n, q.
Qed.
Lemma in_insert pos a l x : In x (insert_at pos a l) <-> x = a \/ In x l.
Proof.
  unfold insert_at. rewrite in_app_iff. cbn. rewrite <- (firstn_skipn pos l) at 3. rewrite in_app_iff. intuition congruence.
Qed.
Lemma nodup_insert pos a l : ~ In a l -> NoDup l -> NoDup (insert_at pos a l).
Proof.
  intros Ha Hn. unfold insert_at. apply NoDup_Add with (a := a) (l := firstn pos l ++ skipn pos l).
  - apply Add_app.
  - rewrite firstn_skipn. easy.
Qed.
Ltac keep H := destruct H; constructor; cbn; easy.
Lemma ps_step h s o : psinv h s -> srinv h s -> sized (o :: h) -> supported (o :: h) ->
  exists s', m_step s o = Some (s', expected h o) /\ psinv (o :: h) s'.
Proof.
  intros H Hsr Hz Hs. assert (Hd : send_recv o \/ ~ send_recv o) by (destruct o; cbn; tauto). destruct Hd as [Ho|Ho].
  - destruct (sr_step h s o Hsr Hz Ho) as [s' [E [_ [E1 [E2 [E3 [E4 E5]]]]]]]. exists s'. split; [easy|].
    destruct o; try easy; destruct H; constructor; cbn [nbind known conn]; rewrite ?E1, ?E2, ?E3, ?E4, ?E5; easy.
  - destruct o as [k t size|k|k v g|k t|k t size pos|k c|k v g|c t|k|]; cbn in Ho; try tauto; cbn [MsgModel.m_step MsgSpec.expected].
    + (* bind *)
      specialize (Hz _ (or_introl eq_refl)). cbn in Hz. unfold m_bind. rewrite (pv_next _ _ H). eexists. split; [reflexivity|].
      set (a := ms_addr s). set (l := match tfind k (ms_ps s) with Some l => l | None => [] end).
      assert (Hla : forall k' l', tfind k' (ms_ps s) = Some l' -> ~ In a l').
      { intros k' l' E Hi. destruct (pv_set _ _ H k' l' a E Hi) as [c [n [q [_ C]]]]. apply (pv_caddr _ _ H) in C. unfold a in C. lia. }
      assert (Hl : ~ In a l) by (unfold l; destruct (tfind k (ms_ps s)) as [l0|] eqn:E; [now apply (Hla k)|easy]).
      assert (Hnl : NoDup l) by (unfold l; destruct (tfind k (ms_ps s)) as [l0|] eqn:E; [now apply (pv_nodup _ _ H k)|constructor]).
      assert (Hin : forall x, In x l -> exists l0, tfind k (ms_ps s) = Some l0 /\ In x l0) by (intros x Hx; unfold l in Hx; destruct (tfind k (ms_ps s)) as [l0|]; [now exists l0|easy]).
      constructor; cbn [ms_next ms_ps ms_conn ms_heap ms_addr nbind known conn].
      * easy.
      * intros k'. rewrite tfind_set, (pv_known _ _ H). destruct (Nat.eqb k' k); easy.
      * intros c. unfold upd. destruct (Nat.eqb_spec c (S (nbind h))) as [->|Hne].
        -- split; [lia|]. intros _. now eexists.
        -- rewrite (pv_conn _ _ H). lia.
      * intros c k' n q Ec. destruct (Nat.eqb_spec c (S (nbind h))) as [->|Hne].
        -- injection Ec as <- <- <-. split; [easy|]. exists a, (rb_new size), (insert_at pos a l). rewrite !upd_same, tfind_set, Nat.eqb_refl.
           do 2 (split; [easy|]). split; [apply rep_new; lia|]. split; [easy|]. apply in_insert. now left.
        -- destruct (pv_live _ _ H c k' n q Ec) as [Hn [a' [b [l' [D1 [D2 [D3 [D4 D5]]]]]]]]. split; [easy|].
           assert (a' <> a) by (intros ->; now apply (Hla k' l' D4)).
           exists a', b. rewrite (upd_other (ms_conn s)) by easy. rewrite upd_other by easy. rewrite tfind_set. destruct (Nat.eqb_spec k' k) as [->|Hk].
           ++ exists (insert_at pos a l). do 4 (split; [easy|]). apply in_insert. right. unfold l. now rewrite D4.
           ++ exists l'. easy.
      * intros k' l' x. rewrite tfind_set. destruct (Nat.eqb_spec k' k) as [->|Hk].
        -- intros E Hi. injection E as <-. apply in_insert in Hi. destruct Hi as [->|Hi].
           ++ exists (S (nbind h)), size, []. rewrite Nat.eqb_refl, upd_same. easy.
           ++ destruct (Hin x Hi) as [l0 [E0 Hi0]]. destruct (pv_set _ _ H k l0 x E0 Hi0) as [c [n [q [C1 C2]]]].
              assert (c <> S (nbind h)) by (apply conn_range in C1; lia). exists c, n, q. rewrite upd_other by easy. destruct (Nat.eqb_spec c (S (nbind h))); easy.
        -- intros E Hi. destruct (pv_set _ _ H k' l' x E Hi) as [c [n [q [C1 C2]]]].
           assert (c <> S (nbind h)) by (apply conn_range in C1; lia). exists c, n, q. rewrite upd_other by easy. destruct (Nat.eqb_spec c (S (nbind h))); easy.
      * intros k' l'. rewrite tfind_set. destruct (Nat.eqb_spec k' k) as [->|Hk]; [|apply H]. intros E. injection E as <-. now apply nodup_insert.
      * intros c x. unfold upd at 1. destruct (Nat.eqb_spec c (S (nbind h))) as [->|Hne]; [discriminate|]. intros E Ec.
        rewrite upd_other; [now apply (pv_dead _ _ H c x)|]. apply (pv_caddr _ _ H) in E. unfold a. lia.
      * intros c c' x. unfold upd. destruct (Nat.eqb_spec c (S (nbind h))) as [->|Hne], (Nat.eqb_spec c' (S (nbind h))) as [->|Hne']; try easy.
        -- intros E E'. injection E as <-. apply (pv_caddr _ _ H) in E'. unfold a in E'. lia.
        -- intros E E'. injection E' as <-. apply (pv_caddr _ _ H) in E. unfold a in E. lia.
        -- apply H.
      * intros x Hx. rewrite upd_other by (unfold a; lia). apply (pv_addr _ _ H). unfold a in Hx. lia.
      * intros c x. unfold upd. destruct (Nat.eqb_spec c (S (nbind h))) as [->|Hne]; [intros E; injection E as <-; lia|]. intros E. apply (pv_caddr _ _ H) in E. unfold a. lia.
      * unfold tset. cbn [map fst]. destruct (terase_nodup k (ms_ps s) (pv_keys _ _ H)) as [T1 T2]. now constructor.
    + (* detach without a hit *)
      cbn in Hs. destruct Hs as [Hc _]. unfold m_detach. rewrite (pv_known _ _ H). destruct (tfind k (ms_ps s)) as [l|] eqn:E.
      * assert (Hd : detach_loop c l s = Some s).
        { assert (Hi : forall a, In a l -> In a l) by easy. revert Hi. generalize l at 1 3. induction l0 as [|a r IH]; intros Hi; cbn; [easy|].
          destruct (set_live h s k l a H E (Hi a (or_introl eq_refl))) as [c' [b [n [q [C1 [C2 [C3 _]]]]]]]. rewrite C3.
          destruct (Nat.eqb_spec c c') as [->|]; [now apply Hc in C1|]. apply IH. intros x Hx. apply Hi. now right. }
        rewrite Hd. exists s. split; [easy|]. keep H.
      * exists s. split; [easy|]. keep H.
    + (* publish *)
      cbn in Hs. destruct Hs as [Hg _]. unfold m_pub. rewrite (pv_known _ _ H). destruct (tfind k (ms_ps s)) as [l|] eqn:E.
      * destruct (pub_spec v g Hg l (ms_heap s) (pv_nodup _ _ H k l E)) as [hp [Ep [F1 F2]]].
        { intros a Hi. destruct (set_live h s k l a H E Hi) as [c [b [n [q [_ [_ [C3 [C4 C5]]]]]]]]. now exists c, b, n, q. }
        rewrite Ep. eexists. split; [reflexivity|]. constructor; cbn [ms_next ms_ps ms_conn ms_heap ms_addr nbind known conn set_heap]; try apply H.
        -- intros c k' n q Ec. destruct (conn h c) as [[[k0 n0] q0]|] eqn:E0; [|discriminate]. injection Ec as -> -> Eq.
           destruct (pv_live _ _ H c k' n q0 E0) as [Hn [a [b [l' [D1 [D2 [D3 [D4 D5]]]]]]]]. split; [easy|].
           destruct (Nat.eqb_spec k k') as [<-|Hk].
           ++ assert (l' = l) by congruence. subst l'. destruct (F2 a c b n q0 D5 D2 D3 Hn) as [b' [G1 G2]]. exists a, b', l. subst q. easy.
           ++ exists a, b, l'. subst q. rewrite F1; [easy|]. intros Hi. apply Hk. now apply (pv_disj h s k l k' l' a).
        -- intros k' l' a E' Hi. destruct (pv_set _ _ H k' l' a E' Hi) as [c [n [q [C1 C2]]]]. exists c, n. rewrite C1. now eexists.
        -- intros c a Ea Ec. destruct (conn h c) as [[[k0 n0] q0]|] eqn:E0; [discriminate|]. rewrite F1; [now apply (pv_dead _ _ H c a)|].
           intros Hi. destruct (pv_set _ _ H k l a E Hi) as [c' [n [q [C1 C2]]]]. rewrite (pv_inj _ _ H c c' a Ea C2) in E0. congruence.
        -- intros a Ha. rewrite F1; [now apply (pv_addr _ _ H)|]. intros Hi. destruct (pv_set _ _ H k l a E Hi) as [c' [n [q [C1 C2]]]]. apply (pv_caddr _ _ H) in C2. lia.
      * exists s. split; [easy|]. assert (Hn : forall c k' n q, conn h c = Some (k', n, q) -> k <> k').
        { intros c k' n q Ec <-. destruct (pv_live _ _ H c k n q Ec) as [_ [a [b [l [_ [_ [_ [D _]]]]]]]]. congruence. }
        assert (He : forall c, match conn h c with Some (k', n, q) => Some (k', n, if Nat.eqb k k' then q_push n v g q else q) | None => None end = conn h c).
        { intros c. destruct (conn h c) as [[[k' n] q]|] eqn:E0; [|easy]. apply Hn in E0. destruct (Nat.eqb_spec k k'); [congruence|easy]. }
        destruct H; constructor; cbn [nbind known conn]; try easy; intros; rewrite ?He in *; eauto.
        destruct (pv_set0 _ _ _ H H0) as [c [n [q C]]]. exists c, n, q. now rewrite He.
    + (* subscribe *)
      cbn in Hs. destruct Hs as [Hc _]. unfold m_sub. destruct (conn h c) as [[[k n] q]|] eqn:Ec.
      * destruct (pv_live _ _ H c k n q Ec) as [Hn [a [b [l [D1 [D2 [D3 [D4 D5]]]]]]]]. rewrite D1, D2. pose proof (pop_rep n q b Hn D3) as Hp.
        destruct q as [|x q].
        -- rewrite Hp. exists s. split; [easy|].
           assert (He : forall c', match conn h c' with Some (k', n', q') => Some (k', n', if Nat.eqb c' c then tl q' else q') | None => None end = conn h c').
           { intros c'. destruct (conn h c') as [[[k' n'] q']|] eqn:E0; [|easy]. destruct (Nat.eqb_spec c' c) as [->|]; [|easy]. rewrite Ec in E0. now injection E0 as <- <- <-. }
           destruct H; constructor; cbn [nbind known conn]; try easy; intros; rewrite ?He in *; eauto.
           destruct (pv_set0 _ _ _ H H0) as [c' [n' [q' C]]]. exists c', n', q'. now rewrite He.
        -- destruct Hp as [b' [E1 R1]]. rewrite E1. cbn [got]. eexists. split; [reflexivity|].
           constructor; cbn [ms_next ms_ps ms_conn ms_heap ms_addr nbind known conn set_heap]; try apply H.
           ++ intros c' k' n' q' E'. destruct (conn h c') as [[[k0 n0] q0]|] eqn:E0; [|discriminate]. injection E' as -> -> Eq. subst q'.
              destruct (Nat.eqb_spec c' c) as [->|Hne].
              ** rewrite Ec in E0. injection E0 as <- <- <-. split; [easy|]. exists a, b', l. rewrite upd_same. easy.
              ** destruct (pv_live _ _ H c' k' n' q0 E0) as [Hn' [a' [b0 [l' [G1 [G2 [G3 [G4 G5]]]]]]]]. split; [easy|]. exists a', b0, l'.
                 rewrite upd_other by (intros ->; apply Hne; now apply (pv_inj _ _ H c' c a)). easy.
           ++ intros k' l' a' E' Hi. destruct (pv_set _ _ H k' l' a' E' Hi) as [c' [n' [q' [C1 C2]]]]. exists c', n'. rewrite C1. now eexists.
           ++ intros c' a' Ea E'. destruct (conn h c') as [[[k0 n0] q0]|] eqn:E0; [discriminate|]. rewrite upd_other; [now apply (pv_dead _ _ H c' a')|].
              intros ->. rewrite (pv_inj _ _ H c' c a Ea D1) in E0. congruence.
           ++ intros a' Ha. rewrite upd_other; [now apply (pv_addr _ _ H)|]. apply (pv_caddr _ _ H) in D1. lia.
      * assert (Em : ms_conn s c = None).
        { destruct (ms_conn s c) as [a|] eqn:Ea; [|easy]. exfalso. assert (1 <= c <= nbind h) by (apply (pv_conn _ _ H); now exists a). destruct Hc as [Hc|Hc]; [now apply Hc|lia]. }
        rewrite Em. exists s. split; [easy|].
        assert (He : forall c', match conn h c' with Some (k', n', q') => Some (k', n', if Nat.eqb c' c then tl q' else q') | None => None end = conn h c').
        { intros c'. destruct (conn h c') as [[[k' n'] q']|] eqn:E0; [|easy]. destruct (Nat.eqb_spec c' c) as [->|]; [congruence|easy]. }
        destruct H; constructor; cbn [nbind known conn]; try easy; intros; rewrite ?He in *; eauto.
        destruct (pv_set0 _ _ _ H H0) as [c' [n' [q' C]]]. exists c', n', q'. now rewrite He.
    + (* drop *)
      unfold m_drop. rewrite (pv_known _ _ H). destruct (tfind k (ms_ps s)) as [l|] eqn:E.
      * destruct (free_spec l (ms_heap s) (pv_nodup _ _ H k l E)) as [hp [Ep [F1 F2]]].
        { intros a Hi. destruct (set_live h s k l a H E Hi) as [c [b [n [q [_ [_ [C3 _]]]]]]]. congruence. }
        rewrite Ep. eexists. split; [reflexivity|]. constructor; cbn [ms_next ms_ps ms_conn ms_heap ms_addr nbind known conn].
        -- apply H.
        -- intros k'. rewrite tfind_erase, (pv_known _ _ H). destruct (Nat.eqb_spec k' k); easy.
        -- apply H.
        -- intros c k' n q Ec. destruct (conn h c) as [[[k0 n0] q0]|] eqn:E0; [|discriminate]. destruct (Nat.eqb_spec k k0) as [|Hk]; [discriminate|].
           injection Ec as -> -> ->. destruct (pv_live _ _ H c k' n q E0) as [Hn [a [b [l' [D1 [D2 [D3 [D4 D5]]]]]]]]. split; [easy|]. exists a, b, l'.
           rewrite F2 by (intros Hi; apply Hk; now apply (pv_disj h s k l k' l' a)). rewrite tfind_erase. destruct (Nat.eqb_spec k' k); [congruence|easy].
        -- intros k' l' a. rewrite tfind_erase. destruct (Nat.eqb_spec k' k) as [|Hk]; [discriminate|]. intros E' Hi.
           destruct (pv_set _ _ H k' l' a E' Hi) as [c [n [q [C1 C2]]]]. exists c, n, q. rewrite C1. destruct (Nat.eqb_spec k k'); [congruence|easy].
        -- intros k' l'. rewrite tfind_erase. destruct (Nat.eqb_spec k' k); [discriminate|apply H].
        -- intros c a Ea Ec. destruct (in_dec_nat a l) as [Hi|Hi]; [now apply F1|]. rewrite F2 by easy. destruct (conn h c) as [[[k0 n0] q0]|] eqn:E0.
           ++ destruct (Nat.eqb_spec k k0) as [<-|]; [|discriminate]. destruct (pv_live _ _ H c k n0 q0 E0) as [_ [a' [b [l' [D1 [_ [_ [D4 D5]]]]]]]]. exfalso. apply Hi. congruence.
           ++ now apply (pv_dead _ _ H c a).
        -- apply H.
        -- intros a Ha. destruct (in_dec_nat a l) as [Hi|Hi]; [now apply F1|]. rewrite F2 by easy. now apply (pv_addr _ _ H).
        -- apply H.
        -- now apply terase_nodup, H.
      * exists s. split; [easy|].
        assert (He : forall c, match conn h c with Some (k', n, q) => if Nat.eqb k k' then None else Some (k', n, q) | None => None end = conn h c).
        { intros c. destruct (conn h c) as [[[k' n] q]|] eqn:E0; [|easy]. destruct (pv_live _ _ H c k' n q E0) as [_ [a [b [l [_ [_ [_ [D _]]]]]]]].
          destruct (Nat.eqb_spec k k') as [<-|]; [congruence|easy]. }
        assert (Hk : forall k', negb (Nat.eqb k' k) && known h k' = known h k').
        { intros k'. destruct (Nat.eqb_spec k' k) as [->|]; [|easy]. rewrite (pv_known _ _ H), E. easy. }
        destruct H; constructor; cbn [nbind known conn]; try easy; intros; rewrite ?He, ?Hk in *; eauto.
        destruct (pv_set0 _ _ _ H H0) as [c' [n' [q' C]]]. exists c', n', q'. now rewrite He.
    + (* clear *)
      unfold m_clear.
      assert (Hall : forall a, In a (concat (map snd (ms_ps s))) <-> exists k l, tfind k (ms_ps s) = Some l /\ In a l).
      { intros a. rewrite in_concat. split.
        - intros [l [Hl Hi]]. apply in_map_iff in Hl. destruct Hl as [[k l'] [E Hk]]. cbn in E. subst l'. exists k, l. split; [|easy]. apply in_tfind; [apply H|easy].
        - intros [k [l [E Hi]]]. exists l. split; [|easy]. apply tfind_in in E. apply in_map_iff. now exists (k, l). }
      destruct (free_spec (concat (map snd (ms_ps s))) (ms_heap s)) as [hp [Ep [F1 F2]]].
      { assert (Hin : forall k l, In (k, l) (ms_ps s) -> tfind k (ms_ps s) = Some l) by (intros k l Hk; apply in_tfind; [apply H|easy]).
        pose proof (pv_keys _ _ H) as Hk. revert Hin Hk. generalize (ms_ps s) at 1 3 4. induction l as [|[k l0] m IH]; intros Hin Hk; cbn; [constructor|].
        cbn in Hk. inversion Hk; subst. apply NoDup_app_iff. split; [apply (pv_nodup _ _ H k); apply Hin; now left|]. split.
        - apply IH; [|easy]. intros k' l' Hx. apply Hin. now right.
        - intros a Ha Hb. apply in_concat in Hb. destruct Hb as [l1 [Hb Hi]]. apply in_map_iff in Hb. destruct Hb as [[k' l'] [El Hb]]. cbn in El. subst l'.
          apply H2. assert (k = k') as ->; [|apply in_map_iff; now exists (k', l1)].
          apply (pv_disj h s k l0 k' l1 a H); [apply Hin; now left|apply Hin; now right|easy|easy]. }
      { intros a Ha. apply Hall in Ha. destruct Ha as [k [l [E Hi]]]. destruct (set_live h s k l a H E Hi) as [c [b [n [q [_ [_ [C3 _]]]]]]]. congruence. }
      rewrite Ep. eexists. split; [reflexivity|]. constructor; cbn; try easy.
      * intros c. split; [intros [a Ha]; discriminate|lia].
      * intros a Ha. destruct (in_dec_nat a (concat (map snd (ms_ps s)))) as [Hi|Hi]; [now apply F1|]. rewrite F2 by easy. now apply (pv_addr _ _ H).
      * constructor.
Qed.
Lemma supported_tl o h : supported (o :: h) -> supported h.
Proof. destruct o; cbn; tauto. Qed.
Lemma psinv_all : forall h, sized h -> supported h -> exists s, m_after h = Some s /\ psinv h s.
Proof.
  induction h as [|o r IH]; intros Hz Hs; cbn [MsgModel.m_after].
  - exists ms_new. split; [easy|]. apply psinv_new.
  - destruct (IH (sized_tl _ _ Hz) (supported_tl _ _ Hs)) as [s [E I]]. rewrite E.
    destruct (ps_step r s o I (srinv_all r s (sized_tl _ _ Hz) E) Hz Hs) as [s' [E' I']]. rewrite E'. now exists s'.
Qed.
End MsgProofs.
