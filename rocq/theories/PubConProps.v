(** C129: publish/subscribe topics used by threads that run at the same time. *)
From Verif Require Import PubConModel PubConSpec PubConProofs.
From Coq Require Import Lia.
Local Open Scope nat_scope.
Local Open Scope list_scope.

Lemma calm_quiet s : quiet s -> calm s.
Proof. intros [_ Q] u. now rewrite Q. Qed.

(** Every call that returned in an execution that stays defined did what it must, whatever the other threads did meanwhile: a
    publication pushed its value once to every connection bound before the call, and to no connection that was never bound; it was
    refused only if nothing was bound; a receive took one value, or none when it reports a timeout; a bind made a new connection.
    And every value taken is the oldest unread one of its connection, and a waiting publication always found room.
    Missing for the full property: executions can be undefined, see [C129_race_refuted], and publications that overlap may reach
    the connections in different orders, see [C129_order_refuted]. *)
Theorem C129_answered_partial : forall N s, reached N s -> answered (bs_tr s) /\ queued (bs_tr s).
Proof. intros N s H. destruct (reached_good N s H) as [[D C] _]. split; [apply (c_ans _ _ _ _ C)|apply (d_queued _ _ _ _ D)]. Qed.
(** The values received from a connection are, in order, values published to it, none invented, repeated or reordered. When all
    publications wait for room, none is lost either: what was published to a connection is what was received from it followed by
    the unread values, which never exceed its size. *)
Theorem C129_delivery_partial : forall N ls s c, roomy ls -> brun N bs_new ls = BRun s ->
  subseq (popped c (bs_tr s)) (pushed c (bs_tr s)) /\
  ((forall k v g, calls ls (OPub k v g) -> g = SWait) -> exists q, pushed c (bs_tr s) = popped c (bs_tr s) ++ q /\ forall t k n, In (EBind t k c n) (bs_tr s) -> inbox (rev (bs_tr s)) c = Some (n, q) /\ length q <= n - 1).
Proof.
  intros N ls s c R E. assert (RE : reached N s) by (exists ls; auto). destruct (reached_good N s RE) as [[D C] _]. destruct (deliver_gen c (bs_tr s) (d_queued _ _ _ _ D)) as (H1 & H2 & H3). split.
  - eapply sq_trans; [|exact H1]. rewrite <- (app_nil_r (popped c (bs_tr s))) at 1. apply sq_app; [apply sq_refl|apply sq_none].
  - intro W. exists (rest_of (bs_tr s) c). split.
    + apply H3. intros t v g X. assert (EV : every (calls ls) (fun v g => exists k, calls ls (OPub k v g)) s). { eapply every_run; [| |intros o Y; exact Y|exact E]; [intros k' v' g' Y; eauto|]. split; [discriminate|intros t' c' v' g' []]. } destruct EV as [_ EV]. destruct (EV t c v g X) as (k & Y). eapply W. exact Y.
    + intros t k n X. destruct (H2 t k n X) as (q & Y). unfold rest_of. rewrite Y. split; [reflexivity|]. pose proof (d_q _ _ _ _ D c) as Z. rewrite Y in Z. destruct Z as (N2 & b & _ & RP). pose proof (RingProofs.r_size _ _ _ RP). lia.
Qed.
(** A publication that starts after another one returned reaches every connection, bound before both, after it. *)
Theorem C129_order_partial : forall N s a t k v g b d u w h e f c, reached N s ->
  bs_tr s = a ++ ECall t (OPub k v g) :: b ++ ERet t (OPub k v g) BOk :: d ++ ECall u (OPub k w h) :: e ++ ERet u (OPub k w h) BOk :: f ->
  calls_none t b -> calls_none u e -> bound a k c -> In (EPush t c v g) b /\ In (EPush u c w h) e.
Proof.
  intros N s a t k v g b d u w h e f c R E NB NE B. pose proof (proj1 (C129_answered_partial N s R)) as A. split.
  - specialize (A a t (OPub k v g) b BOk _ E NB). destruct A as [(_ & l & F & _ & IN & _)|(X & _)]; [|discriminate].
    assert (X : In (EPush t c v g) (filter (mine t) b)) by (rewrite F; apply in_map_iff; exists c; split; [reflexivity|now apply IN]). now apply filter_In in X.
  - assert (E2 : bs_tr s = (a ++ ECall t (OPub k v g) :: b ++ ERet t (OPub k v g) BOk :: d) ++ ECall u (OPub k w h) :: e ++ ERet u (OPub k w h) BOk :: f).
    { rewrite E. repeat (rewrite <- app_assoc; cbn [app]). reflexivity. }
    specialize (A _ u (OPub k w h) e BOk _ E2 NE). destruct A as [(_ & l & F & _ & IN & _)|(X & _)]; [|discriminate].
    assert (X : In (EPush u c w h) (filter (mine u) e)) by (rewrite F; apply in_map_iff; exists c; split; [reflexivity|apply IN; now apply bound_app]). now apply filter_In in X.
Qed.
(** With the connections made before, any number of threads may publish and receive: no execution is undefined. The same holds
    when binds to known topics run at the same time as publications to other topics. *)
Theorem C129_apart_partial : forall N s ls, reached N s -> quiet s -> roomy ls -> apart (bs_tr s) ls -> brun N s ls <> BUndef.
Proof.
  intros N s ls R [_ Q] RM A. apply (apart_run N (calls ls)); auto.
  - intros k n p H. destruct (A k n p H) as (_ & H1 & H2). auto.
  - now apply reached_good.
  - split; [intros t o; rewrite Q; discriminate|auto].
  - intros k n p H. now destruct (A k n p H) as (H1 & _).
Qed.
(** A thread in a call can go on, unless it publishes with WAIT to a full connection, receives from an empty one, or wants to bind
    while another thread that can go on is binding. *)
Theorem C129_live_partial : forall N s t, reached N s -> bs_pc s t <> BIdle -> ~ waits s t ->
  exists u, bs_pc s u <> BIdle /\ bstep N s (LGo u) <> BStuck /\ (u = t \/ bs_lock s = Some u /\ exists k n p, bs_pc s t = BWant (OBind k n p)).
Proof. intros N s t R. apply live. now apply reached_good. Qed.
(** Two publications that overlap may reach two connections of the topic in different orders: from every quiet state with a topic
    of at least two connections and for any two threads. *)
Theorem C129_order_refuted : forall N s k t u v w g h c c', reached N s -> quiet s -> t < N -> u < N -> t <> u -> g <> SWait -> h <> SWait ->
  bound (bs_tr s) k c -> bound (bs_tr s) k c' -> c <> c' ->
  exists ls s' es x y, brun N s ls = BRun s' /\ quiet s' /\ bs_tr s' = bs_tr s ++ es /\ x <> y /\ bound (bs_tr s) k x /\ bound (bs_tr s) k y /\
    (forall o, calls ls o -> o = OPub k v g \/ o = OPub k w h) /\ pushed x es = [v; w] /\ pushed y es = [w; v].
Proof.
  intros N s k t u v w g h c c' R QS TN UN TU GW HW B B' NE. pose proof (reached_good N s R) as G. pose proof (proj1 (proj1 G)) as D. pose proof (calm_quiet s QS) as CA. destruct QS as [QL QP].
  pose proof (d_nd _ _ _ _ D k) as ND. assert (IN : forall z, In z (bs_set s k) <-> bound (bs_tr s) k z) by apply (d_set _ _ _ _ D k).
  destruct (bs_set s k) as [|x [|y l]] eqn:SE.
  - apply IN in B. destruct B.
  - apply IN in B, B'. destruct B as [<-|[]], B' as [<-|[]]. now destruct NE.
  - assert (XY : x <> y) by (intros ->; inversion ND; subst; apply H1; now left).
    destruct (enter N s t k v g G CA (QP t) TN) as (s1 & E1 & S1); [now rewrite SE|]. rewrite SE in S1.
    destruct (enter N s1 u k w h (sm_good _ _ _ _ _ _ S1) (sm_calm _ _ _ _ _ _ S1)) as (s2 & E2 & S2); [rewrite (sm_pc' _ _ _ _ _ _ S1) by auto; apply QP|exact UN|rewrite (sm_set _ _ _ _ _ _ S1), SE; discriminate|].
    rewrite (sm_set _ _ _ _ _ _ S1), SE in S2.
    destruct (loop1 N s2 t k v g x (y :: l) GW (sm_good _ _ _ _ _ _ S2) (sm_calm _ _ _ _ _ _ S2)) as (s3 & E3 & S3); [rewrite (sm_pc' _ _ _ _ _ _ S2) by exact TU; apply (sm_pc _ _ _ _ _ _ S1)|].
    destruct (finish N (x :: y :: l) s3 u k w h HW (sm_good _ _ _ _ _ _ S3) (sm_calm _ _ _ _ _ _ S3)) as (s4 & E4 & S4); [rewrite (sm_pc' _ _ _ _ _ _ S3) by auto; apply (sm_pc _ _ _ _ _ _ S2)|].
    destruct (finish N (y :: l) s4 t k v g GW (sm_good _ _ _ _ _ _ S4) (sm_calm _ _ _ _ _ _ S4)) as (s5 & E5 & S5); [rewrite (sm_pc' _ _ _ _ _ _ S4) by exact TU; apply (sm_pc _ _ _ _ _ _ S3)|].
    assert (PM : forall z t' v' g' l', pushed z (map (fun c0 => EPush t' c0 v' g') l') = flat_map (fun c0 => if Nat.eqb z c0 then [v'] else []) l') by (intros z t' v' g' l'; induction l' as [|z' l' IH]; cbn; [reflexivity|now rewrite <- IH]).
    assert (P0 : forall z v' l', ~ In z l' -> flat_map (fun c0 => if Nat.eqb z c0 then [v'] else []) l' = @nil nat).
    { intros z v' l'. induction l' as [|z' l' IH]; intro H; cbn; [reflexivity|]. destruct (Nat.eqb_spec z z') as [->|]; [exfalso; apply H; now left|]. apply IH. intro X. apply H. now right. }
    assert (XL : ~ In x l) by (inversion ND; subst; intro X; apply H1; now right). assert (YL : ~ In y l) by (inversion ND as [|? ? ? ND2]; subst; now inversion ND2).
    exists ([LCall t (OPub k v g); LGo t; LGo t] ++ [LCall u (OPub k w h); LGo u; LGo u] ++ [LGo t] ++ repeat (LGo u) (length (x :: y :: l) + 2) ++ repeat (LGo t) (length (y :: l) + 2)), s5.
    exists ([ECall t (OPub k v g)] ++ [ECall u (OPub k w h)] ++ [EPush t x v g] ++ (map (fun c0 => EPush u c0 w h) (x :: y :: l) ++ [ERet u (OPub k w h) BOk]) ++ map (fun c0 => EPush t c0 v g) (y :: l) ++ [ERet t (OPub k v g) BOk]), x, y.
    split; [rewrite brun_app, E1, brun_app, E2, brun_app; cbn [brun]; rewrite E3, brun_app, E4; exact E5|].
    split; [split; [rewrite (sm_lock _ _ _ _ _ _ S5), (sm_lock _ _ _ _ _ _ S4), (sm_lock _ _ _ _ _ _ S3), (sm_lock _ _ _ _ _ _ S2), (sm_lock _ _ _ _ _ _ S1); exact QL|]|].
    { intro z. destruct (Nat.eq_dec z t) as [->|ZT]; [apply (sm_pc _ _ _ _ _ _ S5)|]. rewrite (sm_pc' _ _ _ _ _ _ S5) by exact ZT. destruct (Nat.eq_dec z u) as [->|ZU]; [apply (sm_pc _ _ _ _ _ _ S4)|].
      rewrite (sm_pc' _ _ _ _ _ _ S4), (sm_pc' _ _ _ _ _ _ S3), (sm_pc' _ _ _ _ _ _ S2), (sm_pc' _ _ _ _ _ _ S1) by assumption. apply QP. }
    split; [rewrite (sm_tr _ _ _ _ _ _ S5), (sm_tr _ _ _ _ _ _ S4), (sm_tr _ _ _ _ _ _ S3), (sm_tr _ _ _ _ _ _ S2), (sm_tr _ _ _ _ _ _ S1), <- !app_assoc; reflexivity|].
    split; [exact XY|]. split; [apply IN; now left|]. split; [apply IN; right; now left|]. split; [|split].
    + intros o (z & X). rewrite !in_app_iff in X. destruct X as [X|[X|[X|[X|X]]]].
      * destruct X as [X|[X|[X|[]]]]; try discriminate. injection X as _ <-. now left.
      * destruct X as [X|[X|[X|[]]]]; try discriminate. injection X as _ <-. now right.
      * destruct X as [X|[]]; discriminate.
      * apply repeat_spec in X. discriminate.
      * apply repeat_spec in X. discriminate.
    + rewrite !pushed_app, !PM. cbn [pushed flat_map app]. rewrite !Nat.eqb_refl. assert (Nat.eqb x y = false) as -> by now apply Nat.eqb_neq. now rewrite !P0 by assumption.
    + rewrite !pushed_app, !PM. cbn [pushed flat_map app]. rewrite !Nat.eqb_refl. assert (Nat.eqb y x = false) as -> by now apply Nat.eqb_neq, not_eq_sym. now rewrite !P0 by assumption.
Qed.
(** A bind races with every publication to the same topic, with every receive, and, when the topic is new, with every
    publication. *)
Theorem C129_race_refuted : forall N s t u k n p, reached N s -> quiet s -> t < N -> u < N -> t <> u ->
  (forall v g, exists ls, brun N s ls = BUndef /\ forall o, calls ls o -> o = OPub k v g \/ o = OBind k n p) /\
  (forall c, exists ls, brun N s ls = BUndef /\ forall o, calls ls o -> o = OSub c \/ o = OBind k n p) /\
  ((forall c, ~ bound (bs_tr s) k c) -> forall k' v g, exists ls, brun N s ls = BUndef /\ forall o, calls ls o -> o = OPub k' v g \/ o = OBind k n p).
Proof.
  intros N s t u k n p R QS TN UN TU. pose proof (reached_good N s R) as G. pose proof (proj1 (proj1 G)) as D. pose proof (calm_quiet s QS) as CA. destruct QS as [QL QP].
  assert (CL : forall o i o', calls (LCall u o :: repeat (LGo u) i ++ [LCall t (OBind k n p); LGo t; LGo t]) o' -> o' = o \/ o' = OBind k n p).
  { intros o i o' (z & [X|X]); [injection X as _ <-; now left|]. apply in_app_iff in X. destruct X as [X|[X|[X|[X|[]]]]]; try discriminate; [apply repeat_spec in X; discriminate|]. injection X as _ <-. now right. }
  (* from a state in which only [u] is in a call, at a place that the bind conflicts with *)
  assert (BIND : forall s1 q, calm s1 -> bs_pc s1 t = BIdle -> bs_lock s1 = None -> bs_pc s1 u = q -> conflict s1 (BChange (OBind k n p)) q = true -> brun N s1 [LCall t (OBind k n p); LGo t; LGo t] = BUndef).
  { intros s1 q C1 P1 L1 U1 CF. cbn [brun bstep]. assert (t <? N = true) as -> by now apply Nat.ltb_lt. rewrite P1, calm_move by easy. cbn [bs_pc bs_lock]. rewrite upd_same, L1. unfold set_lock. cbn [bs_pc bs_lock bs_set bs_q bs_next bs_tr].
    rewrite calm_move; [|now apply calm_upd|exact Logic.I]. cbn [bs_pc bs_lock bs_set bs_q bs_next bs_tr]. rewrite upd_same. unfold move_to.
    match goal with |- (match (if ?r then _ else _) with _ => _ end) = _ => assert (r = true) as ->; [|reflexivity] end.
    unfold race. apply existsb_exists. exists u. split; [apply in_seq; lia|]. cbn [bs_pc]. rewrite !upd_other by auto. rewrite U1. apply andb_true_iff. split; [apply negb_true_iff; now apply Nat.eqb_neq, not_eq_sym|]. apply orb_true_iff. left. exact CF. }
  (* [u] calls and looks up *)
  assert (LOOK : forall o, is_bind o = false -> brun N s [LCall u o; LGo u] = BRun (mkBS (bs_set s) (bs_q s) (bs_next s) (bs_lock s) (upd (upd (bs_pc s) u (BWant o)) u (BLook o)) ((bs_tr s ++ [ECall u o]) ++ []))).
  { intros o NB. cbn [brun bstep]. assert (u <? N = true) as -> by now apply Nat.ltb_lt. rewrite QP, calm_move by easy. cbn [bs_pc]. rewrite upd_same. destruct o as [k' n' p'|k' v' g'|c']; [discriminate|..]; (rewrite calm_move; [reflexivity|now apply calm_upd|exact Logic.I]). }
  assert (CA2 : forall o, calm (mkBS (bs_set s) (bs_q s) (bs_next s) (bs_lock s) (upd (upd (bs_pc s) u (BWant o)) u (BLook o)) ((bs_tr s ++ [ECall u o]) ++ []))).
  { intros o z. cbn [bs_pc]. destruct (Nat.eq_dec z u) as [->|NU]; [now rewrite upd_same|rewrite !upd_other by exact NU; now rewrite QP]. }
  assert (DIE : forall o, is_bind o = false -> (match bs_set s k with [] => True | _ => match o with OSub _ => True | _ => False end end) -> brun N s (LCall u o :: repeat (LGo u) 1 ++ [LCall t (OBind k n p); LGo t; LGo t]) = BUndef).
  { intros o NB H. change (LCall u o :: repeat (LGo u) 1 ++ [LCall t (OBind k n p); LGo t; LGo t]) with ([LCall u o; LGo u] ++ [LCall t (OBind k n p); LGo t; LGo t]). rewrite brun_app, (LOOK o NB). eapply BIND; [apply CA2| | | |].
    - cbn [bs_pc]. rewrite !upd_other by exact TU. apply QP.
    - exact QL.
    - cbn [bs_pc]. apply upd_same.
    - cbn. destruct o as [k' n' p'|k' v' g'|c']; [discriminate| |reflexivity]. now destruct (bs_set s k). }
  split; [|split].
  - intros v g. destruct (bs_set s k) as [|x l] eqn:S.
    + exists (LCall u (OPub k v g) :: repeat (LGo u) 1 ++ [LCall t (OBind k n p); LGo t; LGo t]). split; [apply DIE; easy|apply CL].
    + exists (LCall u (OPub k v g) :: repeat (LGo u) 2 ++ [LCall t (OBind k n p); LGo t; LGo t]). split; [|apply CL].
      change (LCall u (OPub k v g) :: repeat (LGo u) 2 ++ [LCall t (OBind k n p); LGo t; LGo t]) with ([LCall u (OPub k v g); LGo u; LGo u] ++ [LCall t (OBind k n p); LGo t; LGo t]). rewrite brun_app.
      destruct (enter N s u k v g G CA (QP u) UN) as (s1 & E1 & S1); [now rewrite S|]. rewrite E1. eapply BIND; [apply (sm_calm _ _ _ _ _ _ S1)| | |apply (sm_pc _ _ _ _ _ _ S1)|].
      * rewrite (sm_pc' _ _ _ _ _ _ S1) by exact TU. apply QP.
      * rewrite (sm_lock _ _ _ _ _ _ S1). exact QL.
      * cbn. apply Nat.eqb_refl.
  - intros c. exists (LCall u (OSub c) :: repeat (LGo u) 1 ++ [LCall t (OBind k n p); LGo t; LGo t]). split; [|apply CL]. apply DIE; [reflexivity|]. now destruct (bs_set s k).
  - intros NB k' v g. exists (LCall u (OPub k' v g) :: repeat (LGo u) 1 ++ [LCall t (OBind k n p); LGo t; LGo t]). split; [|apply CL]. apply DIE; [reflexivity|].
    destruct (bs_set s k) as [|x l] eqn:S; [exact Logic.I|]. apply (NB x). apply (d_set _ _ _ _ D). rewrite S. now left.
Qed.

(** Thread 0 binds two connections to topic 5; then threads 1 and 2 publish at the same time while thread 0 receives. *)
Definition c129_bind : list blabel := [LCall 0 (OBind 5 2 0); LGo 0; LGo 0; LGo 0; LGo 0; LCall 0 (OBind 5 3 1); LGo 0; LGo 0; LGo 0; LGo 0].
Definition c129_use : list blabel :=
  [LCall 1 (OPub 5 10 SReplace); LCall 2 (OPub 5 20 SReplace); LGo 1; LGo 2; LGo 2; LGo 1; LGo 1; LGo 2; LGo 2; LGo 2; LGo 2; LCall 0 (OSub 2); LGo 0; LGo 0; LGo 0; LGo 0; LGo 1; LGo 1; LGo 1; LCall 0 (OSub 9); LGo 0; LGo 0; LGo 0].
Example C129_case : match brun 3 bs_new (c129_bind ++ c129_use) with
  | BRun s => pushed 1 (bs_tr s) = [10; 20] /\ pushed 2 (bs_tr s) = [20; 10] /\ popped 2 (bs_tr s) = [20] /\ inbox (rev (bs_tr s)) 1 = Some (2, [20]) /\ inbox (rev (bs_tr s)) 2 = Some (3, [10]) /\
              In (ERet 0 (OSub 2) (BGot 20)) (bs_tr s) /\ In (ERet 0 (OSub 9) BErr) (bs_tr s)
  | _ => False end.
Proof. vm_compute. repeat split; tauto. Qed.
Example C129_case_reached : exists s, brun 3 bs_new c129_bind = BRun s /\ roomy c129_bind /\ quiet s /\ bound (bs_tr s) 5 1 /\ bound (bs_tr s) 5 2 /\ roomy c129_use /\ apart (bs_tr s) c129_use.
Proof.
  eexists. split; [vm_compute; reflexivity|]. assert (R : forall ls, forallb (fun l => match l with LCall _ (OBind _ n _) => 2 <=? n | _ => true end) ls = true -> roomy ls).
  { intros ls H o (t & X). rewrite forallb_forall in H. specialize (H _ X). cbn in H. destruct o; [now apply Nat.leb_le|exact Logic.I|exact Logic.I]. }
  split; [now apply R|]. split; [split; [reflexivity|]|].
  - intro t. cbn. destruct t as [|t]; reflexivity.
  - split; [exists 0, 2; cbn; tauto|]. split; [exists 0, 3; cbn; tauto|]. split; [now apply R|]. intros k n p (t & X). exfalso. cbn in X. repeat (destruct X as [X|X]; [discriminate|]). exact X.
Qed.
(** A bind to a known topic while another thread publishes elsewhere; and a publication that waits for room. *)
Example C129_case_apart : exists s s', brun 3 bs_new (c129_bind ++ [LCall 0 (OBind 6 2 0); LGo 0; LGo 0; LGo 0; LGo 0]) = BRun s /\ quiet s /\
  apart (bs_tr s) [LCall 1 (OPub 6 1 SWait); LGo 1; LGo 1; LCall 0 (OBind 5 2 0); LGo 0; LGo 0; LGo 1; LGo 0; LGo 0; LGo 1; LGo 1] /\
  brun 3 s [LCall 1 (OPub 6 1 SWait); LGo 1; LGo 1; LCall 0 (OBind 5 2 0); LGo 0; LGo 0; LGo 1; LGo 0; LGo 0; LGo 1; LGo 1] = BRun s' /\ quiet s'.
Proof.
  eexists. eexists. split; [vm_compute; reflexivity|]. split; [split; [reflexivity|intro t; cbn; destruct t; reflexivity]|]. split; [|split; [vm_compute; reflexivity|]].
  - assert (X : forall o, calls [LCall 1 (OPub 6 1 SWait); LGo 1; LGo 1; LCall 0 (OBind 5 2 0); LGo 0; LGo 0; LGo 1; LGo 0; LGo 0; LGo 1; LGo 1] o -> o = OPub 6 1 SWait \/ o = OBind 5 2 0).
    { intros o (t & H). cbn in H. repeat (destruct H as [H|H]; [try discriminate; injection H as _ <-; auto|]). destruct H. }
    intros k n p H. apply X in H. destruct H as [H|H]; [discriminate|]. injection H as -> -> ->. split; [exists 1, 0, 2; cbn; tauto|]. split; [intros c Y|intros v g Y]; apply X in Y; destruct Y; discriminate.
  - split; [reflexivity|]. intro t. cbn. destruct t as [|[|t]]; reflexivity.
Qed.
Example C129_case_waits : exists s, brun 3 bs_new (c129_bind ++ [LCall 1 (OPub 5 10 SWait); LGo 1; LGo 1; LGo 1; LGo 1; LGo 1; LGo 1; LCall 1 (OPub 5 11 SWait); LGo 1; LGo 1]) = BRun s /\ waits s 1 /\ bstep 3 s (LGo 1) = BStuck.
Proof. eexists. split; [vm_compute; reflexivity|]. split; [|reflexivity]. left. exists 5, 11, 1, [2], 2, [10]. repeat split. cbn. lia. Qed.
Print Assumptions C129_answered_partial.
Print Assumptions C129_delivery_partial.
Print Assumptions C129_order_partial.
Print Assumptions C129_apart_partial.
Print Assumptions C129_live_partial.
Print Assumptions C129_order_refuted.
Print Assumptions C129_race_refuted.
