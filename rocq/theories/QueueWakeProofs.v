(** No wake-up is lost in UAtomicQueue. *)
From Verif Require Export QueueProofs.
Local Open Scope nat_scope.
Local Open Scope list_scope.

(** Will notify, or is awake and will look at the queue. *)
Definition pa (p : qpc) : bool :=
  match p with
  | PNotify _ _ | PLock | PEval _ | PWake _ => true
  | PUnlock (OPush _ true) _ => true
  | PIn (OPush _ true) [] _ _ => true
  | _ => false
  end.
Definition cnt (n : nat) (f : nat -> qpc) : nat := length (filter (fun t => pa (f t)) (seq 0 n)).
Definition b2 (b : bool) : nat := if b then 1 else 0.
Lemma cnt_upd_aux f t p m : forall k,
  length (filter (fun u => pa (upd f t p u)) (seq k m)) + (if Nat.leb k t && Nat.ltb t (k + m) then b2 (pa (f t)) else 0) =
  length (filter (fun u => pa (f u)) (seq k m)) + (if Nat.leb k t && Nat.ltb t (k + m) then b2 (pa p) else 0).
Proof.
  induction m as [|m IH]; intros k; cbn [seq filter].
  - destruct (Nat.leb_spec k t); destruct (Nat.ltb_spec t (k + 0)); cbn [andb]; lia.
  - specialize (IH (S k)). destruct (Nat.eq_dec k t) as [->|N].
    + rewrite upd_same. destruct (Nat.leb_spec (S t) t); [lia|]. cbn [andb] in IH. destruct (Nat.leb_spec t t); [|lia]. destruct (Nat.ltb_spec t (t + S m)); [|lia]. cbn [andb].
      destruct (pa p), (pa (f t)); cbn [length b2]; lia.
    + rewrite upd_other by congruence.
      assert (E : (Nat.leb k t && Nat.ltb t (k + S m)) = (Nat.leb (S k) t && Nat.ltb t (S k + m))).
      { destruct (Nat.leb_spec k t), (Nat.leb_spec (S k) t), (Nat.ltb_spec t (k + S m)), (Nat.ltb_spec t (S k + m)); cbn [andb]; try reflexivity; lia. }
      rewrite E. destruct (pa (f k)); cbn [length]; lia.
Qed.
Lemma cnt_upd n f t p : t < n -> cnt n (upd f t p) + b2 (pa (f t)) = cnt n f + b2 (pa p).
Proof.
  intros L. pose proof (cnt_upd_aux f t p n 0) as H. unfold cnt. destruct (Nat.ltb_spec t (0 + n)); [|lia]. cbn [Nat.leb andb] in H. exact H.
Qed.
Lemma cnt_pos n f : 0 < cnt n f -> exists t, t < n /\ pa (f t) = true.
Proof.
  unfold cnt. intros H. destruct (filter (fun t => pa (f t)) (seq 0 n)) as [|x r] eqn:E; [cbn in H; lia|].
  assert (I : In x (filter (fun t => pa (f t)) (seq 0 n))) by (rewrite E; left; reflexivity). apply filter_In in I. destruct I as [I K]. apply in_seq in I. exists x. split; [lia|exact K].
Qed.

Definition one_op (o : qop) : Prop := match o with OPush vs b => b = true /\ length vs = 1 | OTryPush _ => False | _ => True end.
Definition one_pc (p : qpc) : Prop :=
  match p with
  | PTest o | PTry o | PUnlock o _ => one_op o
  | PIn o todo _ _ => one_op o /\ length todo <= 1 /\ match o with OPush _ _ => True | _ => todo = [] end
  | _ => True
  end.
Record winv (n : nat) (s : qst) : Prop := {
  w_inv : inv s;
  w_one : forall t, one_pc (q_pc s t);
  w_cnt : q_ready s = true -> (exists t, t < n /\ q_pc s t = PSleep) -> length (q_l s) <= cnt n (q_pc s);
  w_rst : forall t, q_pc s t = PRNotify -> q_ready s = false;
  w_off : q_ready s = false -> (exists t, t < n /\ q_pc s t = PSleep) -> exists u, u < n /\ q_pc s u = PRNotify }.

Lemma one_upd s t p : (forall u, one_pc (q_pc s u)) -> one_pc p -> forall u, one_pc (upd (q_pc s) t p u).
Proof. intros H K u. destruct (Nat.eq_dec u t) as [->|N]; [rewrite upd_same; exact K|rewrite upd_other by congruence; apply H]. Qed.

(** A step of thread [t] to the place [p]. *)
Lemma step_w n s own l t p tr : winv n s -> t < n -> inv (mkQ own l (q_ready s) (upd (q_pc s) t p) tr) -> one_pc p -> p <> PRNotify -> q_pc s t <> PRNotify ->
  (q_ready s = true -> length (q_l s) <= cnt n (q_pc s) -> length l <= cnt n (upd (q_pc s) t p)) ->
  (p = PSleep -> q_ready s = true /\ l = []) ->
  winv n (mkQ own l (q_ready s) (upd (q_pc s) t p) tr).
Proof.
  intros [V O C R F] L V1 O1 NR NR0 CN SL. split; cbn [q_ready q_l q_pc].
  - exact V1.
  - apply one_upd; assumption.
  - intros RD (u & U & PS). destruct (Nat.eq_dec u t) as [->|N].
    + rewrite upd_same in PS. destruct (SL PS) as [_ ->]. cbn. lia.
    + rewrite upd_other in PS by congruence. apply CN; [exact RD|]. apply C; eauto.
  - intros u. destruct (Nat.eq_dec u t) as [->|N]; [rewrite upd_same; congruence|rewrite upd_other by congruence; apply R].
  - intros RD (u & U & PS). destruct (Nat.eq_dec u t) as [->|N].
    + rewrite upd_same in PS. destruct (SL PS) as [X _]. congruence.
    + rewrite upd_other in PS by congruence. destruct F as (x & X & Y); eauto. exists x. split; [exact X|]. rewrite upd_other; [exact Y|]. intros ->. congruence.
Qed.
Ltac cntl n s t p L P := pose proof (cnt_upd n (q_pc s) t p L) as CU; rewrite P in CU; cbn [pa b2] in CU.

Lemma step_winv n s lb s' : winv n s -> (match lb with QCall _ o => one_op o | _ => True end) -> qstep n s lb = Some s' -> winv n s'.
Proof.
  intros W ONE H. pose proof (step_inv n s lb s' (w_inv _ _ W) H) as V1.
  destruct lb as [t o|t w|t|t]; cbn [qstep] in H; destruct (Nat.ltb t n) eqn:L; try discriminate; apply Nat.ltb_lt in L.
  - destruct (q_pc s t) eqn:P; try discriminate. injection H as <-.
    apply step_w; try assumption.
    + destruct o; cbn; auto.
    + destruct o; discriminate.
    + rewrite P. discriminate.
    + intros _ X. cntl n s t (start o) L P. lia.
    + destruct o; discriminate.
  - pose proof (w_one _ _ W t) as ON. pose proof (i_pc _ (w_inv _ _ W) t) as PK.
    destruct (q_pc s t) as [|o|o|o todo k got|o got|o got| |late| |late| | | |] eqn:P; try discriminate; cbn [one_pc pc_ok] in ON, PK.
    + destruct (q_l s) eqn:Q; injection H as <-.
      * unfold ret in *. apply step_w; try assumption; try exact I; try discriminate; [rewrite P; discriminate|]. intros _ X. rewrite Q. cbn. lia.
      * unfold set_pc in *. apply step_w; try assumption; try discriminate; [rewrite P; discriminate|]. intros _ X. cntl n s t (PTry o) L P. lia.
    + destruct (q_own s) eqn:O.
      * assert (RR : forall x, inv (ret s t x) -> winv n (ret s t x)).
        { intros x VX. unfold ret in *. apply step_w; try assumption; try exact I; try discriminate; [rewrite P; discriminate|]. intros _ X. cntl n s t PIdle L P. lia. }
        destruct o; injection H as <-; try exact W; apply RR; exact V1.
      * injection H as <-. apply step_w; try assumption.
        -- destruct o; cbn in ON |- *; try contradiction; auto; try (split; [exact I|split; [lia|reflexivity]]). split; [exact ON|]. split; [lia|exact I].
        -- destruct o; discriminate.
        -- rewrite P; discriminate.
        -- intros _ X. cntl n s t (enter o) L P. lia.
        -- destruct o; discriminate.
    + destruct ON as (ON & T1 & T2). destruct o as [vs b|v|m|m| |]; try contradiction.
      * destruct ON as [-> VS]. destruct todo as [|x r]; injection H as <-.
        -- unfold set_pc in *. apply step_w; try assumption; try discriminate; [split; auto|rewrite P; discriminate|]. intros _ X. cntl n s t (PUnlock (OPush vs true) got) L P. lia.
        -- assert (r = []) by (destruct r; [reflexivity|cbn in T1; lia]). subst r.
           apply step_w; try assumption; try discriminate; [cbn; auto|rewrite P; discriminate|].
           intros _ X. cntl n s t (PIn (OPush vs true) [] k got) L P. rewrite app_length. cbn [length]. lia.
      * destruct k as [|j]; [|destruct (q_l s) as [|x r] eqn:Q]; injection H as <-.
        -- unfold set_pc in *. apply step_w; try assumption; try discriminate; [rewrite P; discriminate|]. intros _ X. cntl n s t (PUnlock (OPop m) got) L P. lia.
        -- unfold set_pc in *. apply step_w; try assumption; try discriminate; [rewrite P; discriminate|]. intros _ X. rewrite Q. cbn. lia.
        -- apply step_w; try assumption; try discriminate; [cbn; auto|rewrite P; discriminate|]. intros _ X. cntl n s t (PIn (OPop m) todo j (got ++ [x])) L P. rewrite Q in X. cbn [length] in X. lia.
      * destruct k as [|j]; [|destruct (rev (q_l s)) as [|x r] eqn:Q]; injection H as <-.
        -- unfold set_pc in *. apply step_w; try assumption; try discriminate; [rewrite P; discriminate|]. intros _ X. cntl n s t (PUnlock (OSteal m) got) L P. lia.
        -- unfold set_pc in *. apply step_w; try assumption; try discriminate; [rewrite P; discriminate|]. intros _ X. rewrite <- rev_length, Q. cbn. lia.
        -- apply step_w; try assumption; try discriminate; [cbn; auto|rewrite P; discriminate|]. intros _ X. cntl n s t (PIn (OSteal m) todo j (got ++ [x])) L P.
           rewrite <- rev_length, Q in X. cbn [length] in X. rewrite rev_length. lia.
    + assert (IDLE : forall tr, pa (PUnlock o got) = false -> inv (mkQ None (q_l s) (q_ready s) (upd (q_pc s) t PIdle) tr) -> winv n (mkQ None (q_l s) (q_ready s) (upd (q_pc s) t PIdle) tr)).
      { intros tr PF VX. apply step_w; try assumption; try discriminate; try exact I; [rewrite P; discriminate|]. intros _ X. pose proof (cnt_upd n (q_pc s) t PIdle L) as CU. rewrite P, PF in CU. cbn [pa b2] in CU. lia. }
      destruct o as [vs b|v|m|m| |]; try (injection H as <-; apply IDLE; [reflexivity|exact V1]). cbn in ON. destruct ON as [-> VS]. injection H as <-.
      apply step_w; try assumption; try discriminate; try exact I; [rewrite P; discriminate|]. intros _ X. cntl n s t (PNotify (OPush vs true) got) L P. lia.
    + destruct w as [x|].
      * destruct (Nat.ltb x n) eqn:LX; cbn [andb] in H; [|discriminate]. apply Nat.ltb_lt in LX. destruct (q_pc s x) eqn:PX; cbn [is_sleep] in H; try discriminate. injection H as <-.
        assert (N : x <> t) by congruence.
        assert (VX : inv (set_pc s x (PWake false))) by (apply set_inv; try exact (w_inv _ _ W); try rewrite PX; try reflexivity; exact I).
        pose proof (cnt_upd n (q_pc s) x (PWake false) LX) as C1. rewrite PX in C1. cbn [pa b2] in C1.
        pose proof (cnt_upd n (upd (q_pc s) x (PWake false)) t PIdle L) as C2. rewrite (upd_other (q_pc s) x _ t) in C2 by congruence. rewrite P in C2. cbn [pa b2] in C2.
        destruct W as [V O C R F]. split; cbn [ret set_pc q_ready q_l q_pc].
        -- exact V1.
        -- intros u. destruct (Nat.eq_dec u t) as [->|N1]; [rewrite upd_same; exact I|]. rewrite upd_other by congruence. apply one_upd; [exact O|exact I].
        -- intros RD (u & U & PS). assert (SX : exists y, y < n /\ q_pc s y = PSleep) by eauto. specialize (C RD SX). lia.
        -- intros u. destruct (Nat.eq_dec u t) as [->|N1]; [rewrite upd_same; discriminate|]. rewrite upd_other by congruence.
           destruct (Nat.eq_dec u x) as [->|N2]; [rewrite upd_same; discriminate|]. rewrite upd_other by congruence. apply R.
        -- intros RD (u & U & PS). destruct F as (y & Y & PY); eauto. exists y. split; [exact Y|].
           rewrite upd_other by congruence. rewrite upd_other by congruence. exact PY.
      * destruct (existsb (fun x => is_sleep (q_pc s x)) (seq 0 n)) eqn:E; [discriminate|]. injection H as <-.
        assert (NS : forall u, u < n -> q_pc s u <> PSleep).
        { intros u U PS. assert (X : existsb (fun x => is_sleep (q_pc s x)) (seq 0 n) = true) by (apply existsb_exists; exists u; split; [apply in_seq; lia|rewrite PS; reflexivity]). congruence. }
        assert (NS1 : forall u, u < n -> upd (q_pc s) t PIdle u <> PSleep).
        { intros u U. destruct (Nat.eq_dec u t) as [->|N1]; [rewrite upd_same; discriminate|]. rewrite upd_other by congruence. apply NS, U. }
        destruct W as [V O C R F]. split; cbn [ret q_ready q_l q_pc].
        -- exact V1.
        -- apply one_upd; [exact O|exact I].
        -- intros _ (u & U & PS). exfalso. exact (NS1 u U PS).
        -- intros u. destruct (Nat.eq_dec u t) as [->|N1]; [rewrite upd_same; discriminate|]. rewrite upd_other by congruence. apply R.
        -- intros _ (u & U & PS). exfalso. exact (NS1 u U PS).
    + destruct (q_own s); [discriminate|]. injection H as <-. apply step_w; try assumption; try discriminate; try exact I; [rewrite P; discriminate|]. intros _ X. cntl n s t (PEval false) L P. lia.
    + destruct (q_ready s) eqn:RD.
      * destruct (q_l s) as [|x r] eqn:Q.
        -- destruct late; injection H as <-.
           ++ unfold set_pc in *. apply step_w; try assumption; try discriminate; try exact I; [rewrite P; discriminate|]. intros _ X. rewrite Q. cbn. lia.
           ++ rewrite <- RD in *. apply step_w; try assumption; try discriminate; try exact I; [rewrite P; discriminate|intros _ X; cbn; lia|auto].
        -- injection H as <-. rewrite <- RD in *. apply step_w; try assumption; try discriminate; try exact I; [rewrite P; discriminate|].
           intros _ X. cntl n s t (PUnlock OTimed [x]) L P. rewrite Q in X. cbn [length] in X. lia.
      * injection H as <-. unfold set_pc in *. apply step_w; try assumption; try discriminate; try exact I; [rewrite P; discriminate|congruence].
    + destruct (q_own s); [discriminate|]. injection H as <-. apply step_w; try assumption; try discriminate; try exact I; [rewrite P; discriminate|]. intros _ X. cntl n s t (PEval late) L P. lia.
    + injection H as <-. unfold ret in *. cbn [q_own q_l q_ready q_pc q_tr] in *. apply step_w; try assumption; try discriminate; try exact I; [rewrite P; discriminate|]. intros _ X. cntl n s t PIdle L P. lia.
    + destruct (q_own s); [discriminate|]. injection H as <-. apply step_w; try assumption; try discriminate; try exact I; [rewrite P; discriminate|]. intros _ X. cntl n s t PRIn L P. lia.
    + injection H as <-. destruct W as [V O C R F]. split; cbn [q_ready q_l q_pc].
      * exact V1.
      * apply one_upd; [exact O|exact I].
      * discriminate.
      * reflexivity.
      * intros _ _. exists t. split; [exact L|apply upd_same].
    + injection H as <-. destruct W as [V O C R F]. pose proof (R t P) as RD.
      assert (NS : forall u, upd (wake_all (q_pc s)) t PIdle u <> PSleep).
      { intros u. destruct (Nat.eq_dec u t) as [->|N1]; [rewrite upd_same; discriminate|]. rewrite upd_other by congruence. unfold wake_all. destruct (q_pc s u); discriminate. }
      split; cbn [ret q_ready q_l q_pc].
      * exact V1.
      * intros u. destruct (Nat.eq_dec u t) as [->|N1]; [rewrite upd_same; exact I|]. rewrite upd_other by congruence. pose proof (O u) as OU. unfold wake_all. destruct (q_pc s u); first [exact OU|exact I].
      * congruence.
      * intros u _. exact RD.
      * intros _ (u & _ & PS). exfalso. exact (NS u PS).
  - destruct (q_pc s t) eqn:P; try discriminate. injection H as <-. unfold set_pc in *. apply step_w; try assumption; try discriminate; try exact I; [rewrite P; discriminate|]. intros _ X. cntl n s t (PWake true) L P. lia.
  - destruct (q_pc s t) eqn:P; try discriminate. injection H as <-. unfold set_pc in *. apply step_w; try assumption; try discriminate; try exact I; [rewrite P; discriminate|]. intros _ X. cntl n s t (PWake false) L P. lia.
Qed.
Lemma winv_init n : winv n q_init.
Proof.
  split.
  - apply inv_init.
  - intros t. exact I.
  - intros _ (t & _ & H). discriminate H.
  - intros t H. discriminate H.
  - intros H. discriminate H.
Qed.
Lemma run_winv n ls : forall s s', winv n s -> (forall t o, In (QCall t o) ls -> one_op o) -> qrun n s ls = Some s' -> winv n s'.
Proof.
  induction ls as [|x r IH]; intros s s' W O; cbn [qrun]; [congruence|]. destruct (qstep n s x) as [s1|] eqn:S; [|discriminate].
  apply IH; [|intros t o I; apply (O t o); right; exact I]. eapply step_winv; [exact W| |exact S]. destruct x; try exact I. apply (O t o). left. reflexivity.
Qed.
Lemma atomic_one ls : atomic_queue ls -> forall t o, In (QCall t o) ls -> one_op o.
Proof. intros [A B] t o I. destruct o; cbn; auto. - apply (A _ _ _ I). - apply (B _ _ I). Qed.
Lemma no_lost n ls s t : atomic_queue ls -> qrun n q_init ls = Some s -> t < n -> q_pc s t = PSleep -> q_l s <> [] \/ q_ready s = false ->
  exists u, u < n /\ stirring (q_pc s u).
Proof.
  intros A H L P Q. pose proof (run_winv n ls q_init s (winv_init n) (atomic_one ls A) H) as [V O C R F].
  destruct (q_ready s) eqn:RD.
  - destruct Q as [Q|Q]; [|discriminate]. assert (X : length (q_l s) <= cnt n (q_pc s)) by (apply C; eauto).
    destruct (cnt_pos n (q_pc s)) as (u & U & PA); [destruct (q_l s); [congruence|cbn in X; lia]|]. exists u. split; [exact U|].
    destruct (q_pc s u) as [|o|o|o todo k got|o got|o got| |late| |late| | | |]; try discriminate PA; try exact I.
    + destruct o as [vs [|]| | | | |]; try discriminate PA. exact I.
    + destruct o as [vs [|]| | | | |]; try discriminate PA. exact I.
  - destruct F as (u & U & PU); eauto. exists u. split; [exact U|]. rewrite PU. exact I.
Qed.
