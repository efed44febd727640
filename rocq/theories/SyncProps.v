(** Property theorems on the synchronisation classes. *)
From Verif Require Import SyncModel.
Local Open Scope nat_scope.
Local Open Scope list_scope.

(** ** C75: the spin lock *)
Record linv (s : lock) : Prop := { li_flag : lk_flag s = true <-> exists u, lk_th s u = SpIn; li_one : forall u v, lk_th s u = SpIn -> lk_th s v = SpIn -> u = v }.
Lemma linv_step s l s' : linv s -> lock_step s l = Some s' -> linv s'.
Proof.
  intros [F O] E. destruct l as [u|u|u|u]; cbn [lock_step] in E; destruct (lk_th s u) eqn:U; try discriminate; injection E as <-.
  - constructor; cbn [lk_flag lk_th]; [rewrite F; split; intros [v V]; exists v; unfold upd in *; destruct (Nat.eqb_spec v u); subst; congruence|].
    intros v w. unfold upd. destruct (Nat.eqb_spec v u), (Nat.eqb_spec w u); subst; try easy. apply O.
  - destruct (lk_flag s) eqn:L; constructor; cbn [lk_flag lk_th]; try easy.
    + split; [|easy]. intros _. exists u. unfold upd. now rewrite Nat.eqb_refl.
    + intros v w. unfold upd. destruct (Nat.eqb_spec v u), (Nat.eqb_spec w u); subst; try easy; intros A B; exfalso; [assert (X : false = true) by (apply F; eauto)|assert (X : false = true) by (apply F; eauto)|assert (X : false = true) by (apply F; eauto)]; easy.
  - destruct (lk_flag s) eqn:L; constructor; cbn [lk_flag lk_th]; try easy.
    + split; [|easy]. intros _. exists u. unfold upd. now rewrite Nat.eqb_refl.
    + intros v w. unfold upd. destruct (Nat.eqb_spec v u), (Nat.eqb_spec w u); subst; try easy; intros A B; exfalso; [assert (X : false = true) by (apply F; eauto)|assert (X : false = true) by (apply F; eauto)|assert (X : false = true) by (apply F; eauto)]; easy.
  - assert (N : forall v, upd (lk_th s) u SpOut v <> SpIn).
    { intros v. unfold upd. destruct (Nat.eqb_spec v u) as [|H]; [easy|]. intros V. apply H. now apply O. }
    constructor; cbn [lk_flag lk_th]; [split; [easy|intros [v V]; now apply N in V]|intros v w V; now apply N in V].
Qed.
Lemma linv_run : forall ls s s', linv s -> lock_run s ls = Some s' -> linv s'.
Proof. induction ls as [|l r IH]; intros s s' I E; cbn [lock_run] in E; [now injection E as <-|]. destruct (lock_step s l) as [s1|] eqn:E1; [|discriminate]. apply (IH s1); [|easy]. eapply linv_step; eauto. Qed.
Lemma linv_new : linv lock_new.
Proof. constructor; cbn; [split; [easy|intros [u H]; discriminate]|easy]. Qed.
(** C75: in every history in which only holders unlock, at most one thread is between lock (or a successful tryLock) and unlock. *)
Theorem C75_exclusive : forall ls s u v, lock_run lock_new ls = Some s -> lk_th s u = SpIn -> lk_th s v = SpIn -> u = v.
Proof. intros ls s u v E. apply (li_one _ (linv_run ls _ s linv_new E)). Qed.
(** C75: tryLock and an attempt of lock succeed if and only if nobody holds the lock, and change nothing for the other threads. *)
Theorem C75_attempt : forall ls s l u s', lock_run lock_new ls = Some s -> l = LkTry u \/ l = LkTas u -> lock_step s l = Some s' ->
  (lk_th s' u = SpIn <-> forall v, lk_th s v <> SpIn) /\ (forall v, v <> u -> lk_th s' v = lk_th s v).
Proof.
  intros ls s l u s' E H E1. destruct (linv_run ls _ s linv_new E) as [F O].
  assert (G : exists x, x <> SpIn /\ lk_th s u = x /\ s' = mkLock true (if lk_flag s then lk_th s else upd (lk_th s) u SpIn)).
  { destruct H as [-> | ->]; cbn [lock_step] in E1; destruct (lk_th s u) eqn:U; try discriminate; injection E1 as <-; eexists; split; try split; try reflexivity; discriminate. }
  destruct G as (x & X & U & ->). cbn [lk_th]. destruct (lk_flag s) eqn:L.
  - split; [|easy]. split; [congruence|]. intros H1. destruct (proj1 F eq_refl) as [v V]. now apply H1 in V.
  - split; [|intros v V; unfold upd; destruct (Nat.eqb_spec v u); [easy|easy]]. unfold upd. rewrite Nat.eqb_refl. split; [|easy]. intros _ v V. assert (false = true) by (apply F; eauto). easy.
Qed.
(** C75: unlock frees the lock. *)
Theorem C75_unlock : forall ls s u s', lock_run lock_new ls = Some s -> lock_step s (LkUnlock u) = Some s' -> forall v, lk_th s' v <> SpIn.
Proof.
  intros ls s u s' E E1. cbn [lock_step] in E1. destruct (lk_th s u) eqn:U; try discriminate. injection E1 as <-. cbn. intros v. unfold upd. destruct (Nat.eqb_spec v u) as [|H]; [easy|].
  intros V. apply H. eapply C75_exclusive; eauto.
Qed.
Example C75_case : exists s, lock_run lock_new [LkCall 1; LkTas 1; LkCall 2; LkTas 2; LkTry 3; LkUnlock 1; LkTry 3; LkTas 2] = Some s /\ lk_th s 3 = SpIn /\ lk_th s 2 = SpWant /\ lk_th s 1 = SpOut.
Proof. eexists. split; [vm_compute; reflexivity|]. easy. Qed.

(** ** C76: the semaphore *)
Lemma sema_cnt : forall ls s s', sema_run s ls = Some s' -> (sm_cnt s = Z.of_nat (sm_sig s) - Z.of_nat (sm_calls s))%Z -> (sm_cnt s' = Z.of_nat (sm_sig s') - Z.of_nat (sm_calls s'))%Z.
Proof.
  induction ls as [|l r IH]; intros s s' E C; cbn [sema_run] in E; [now injection E as <-|]. destruct (sema_step s l) as [s1|] eqn:E1; [|discriminate]. apply (IH s1); [easy|]. clear IH E.
  destruct l as [|u|u]; cbn [sema_step] in E1.
  - injection E1 as <-. cbn [sm_cnt sm_sig sm_calls]. lia.
  - destruct (memb u (sm_wait s)); [discriminate|]. destruct (sm_cnt s - 1 <? 0)%Z; injection E1 as <-; cbn [sm_cnt sm_sig sm_calls]; lia.
  - destruct (memb u (sm_wait s)); [|discriminate]. destruct (sm_cnt s <? 0)%Z; injection E1 as <-; cbn [sm_cnt sm_sig sm_calls]; lia.
Qed.
(** C76: false. A wait without any signal returns at once; and after any positive number of signals the first wait does not return, nor when woken, until further threads wait. *)
Theorem C76_refuted : (exists s, sema_run sema_new [SmWait 0] = Some s /\ sm_ret s = [0] /\ sm_sig s = 0) /\
  forall n, exists s, sema_run sema_new (repeat SmSignal (S n) ++ [SmWait 0]) = Some s /\ sm_sig s = S n /\ sm_ret s = [] /\
    forall ls s', sema_run s ls = Some s' -> (forall u, ~ In (SmWait u) ls) -> sm_ret s' = [].
Proof.
  split; [eexists; split; [vm_compute; reflexivity|]; easy|]. intros n.
  assert (G : forall k s, sema_run s (repeat SmSignal k ++ [SmWait 0]) = sema_run (mkSema (sm_cnt s + Z.of_nat k) (sm_wait s) (k + sm_sig s) (sm_calls s) (sm_ret s)) [SmWait 0]).
  { clear. induction k as [|k IH]; intros s; [cbn [repeat app Nat.add]; rewrite Z.add_0_r; now destruct s|]. change (repeat SmSignal (S k) ++ [SmWait 0]) with (SmSignal :: (repeat SmSignal k ++ [SmWait 0])).
    cbn [sema_run sema_step]. rewrite IH. cbn [sm_cnt sm_wait sm_sig sm_calls sm_ret]. replace (k + S (sm_sig s)) with (S k + sm_sig s) by lia. now replace (sm_cnt s + 1 + Z.of_nat k)%Z with (sm_cnt s + Z.of_nat (S k))%Z by lia. }
  rewrite (G (S n) sema_new). cbn [sema_new sm_cnt sm_wait sm_sig sm_calls sm_ret]. set (k := Z.of_nat (S n)). assert (K : (1 <= k)%Z) by (subst k; lia). cbn [sema_run sema_step sm_cnt sm_wait sm_sig sm_calls sm_ret memb existsb].
  replace (S n + 0) with (S n) by lia. destruct (Z.ltb_spec (0 + k - 1) 0); [lia|]. eexists. split; [reflexivity|]. cbn [sm_sig sm_ret]. split; [easy|]. split; [easy|].
  assert (J : forall ls s s', (0 <= sm_cnt s)%Z -> sm_ret s = [] -> sema_run s ls = Some s' -> (forall u, ~ In (SmWait u) ls) -> sm_ret s' = []).
  { clear. induction ls as [|l r IH]; intros s s' C R E N; cbn [sema_run] in E; [now injection E as <-|]. destruct (sema_step s l) as [s1|] eqn:E1; [|discriminate].
    assert (NR : forall u, ~ In (SmWait u) r) by (intros u Hu; apply (N u); now right). destruct l as [|u|u]; cbn [sema_step] in E1.
    - injection E1 as <-. eapply IH; [| |exact E|exact NR]; cbn [sm_cnt sm_ret]; easy || lia.
    - exfalso. apply (N u). now left.
    - destruct (memb u (sm_wait s)); [|discriminate]. destruct (Z.ltb_spec (sm_cnt s) 0); [lia|]. injection E1 as <-. eapply IH; eauto. }
  intros ls s' E N. eapply J; [| |exact E|exact N]; cbn [sm_cnt sm_ret]; [lia|easy].
Qed.
(** C76 (what holds instead): a call of wait returns at once exactly if the calls so far, this one included, are more than the signals so far; and a woken
    thread leaves exactly then. *)
Theorem C76_partial : forall ls s u s', sema_run sema_new ls = Some s ->
  (sema_step s (SmWait u) = Some s' -> (sm_ret s' = u :: sm_ret s <-> sm_sig s < S (sm_calls s)) /\ (sm_ret s' = sm_ret s <-> S (sm_calls s) <= sm_sig s)) /\
  (sema_step s (SmWake u) = Some s' -> (sm_ret s' = u :: sm_ret s <-> sm_sig s < sm_calls s) /\ (sm_ret s' = sm_ret s <-> sm_calls s <= sm_sig s)).
Proof.
  intros ls s u s' E. pose proof (sema_cnt ls sema_new s E eq_refl) as C. assert (X : forall (a : list nat), a <> u :: a) by (intros a; induction a; congruence). split; intros E1; cbn [sema_step] in E1.
  - destruct (memb u (sm_wait s)); [discriminate|]. destruct (Z.ltb_spec (sm_cnt s - 1) 0); injection E1 as <-; cbn [sm_ret]; split; split; try easy; try lia; intros Y; exfalso; now apply (X (sm_ret s)).
  - destruct (memb u (sm_wait s)); [|discriminate]. destruct (Z.ltb_spec (sm_cnt s) 0); injection E1 as <-; cbn [sm_ret]; split; split; try easy; try lia; intros Y; exfalso; now apply (X (sm_ret s)).
Qed.
Example C76_case : exists s, sema_run sema_new [SmSignal; SmWait 1; SmWait 2; SmWake 1] = Some s /\ sm_ret s = [1; 2].
Proof. eexists. split; [vm_compute; reflexivity|]. easy. Qed.

(** ** C77: the lock-free ring *)
(** One producer (thread 0) and one consumer (thread 0); [n] is the capacity given to the class. Positions are kept as running numbers: the k-th value pushed lies in slot k mod n. *)
Definition spsc (l : rlabel) : Prop := match l with RPush u _ | RProd u | RPop u | RCons u => u = 0 end.
Record rinv (n : nat) (s : lring) : Prop :=
  { ri_t : q_tail s = length (q_in s) mod n;
    ri_h : q_head s = length (q_out s) mod n;
    ri_c : length (q_out s) <= length (q_in s) /\ length (q_in s) + 1 <= length (q_out s) + n;
    ri_o : q_out s = firstn (length (q_out s)) (q_in s);
    ri_b : forall k, length (q_out s) <= k < length (q_in s) -> q_buf s (k mod n) = nth k (q_in s) 0;
    ri_p : match q_pr s 0 with
           | PrIdle => True
           | PrFull _ cur => cur = q_tail s
           | PrWrite _ cur => cur = q_tail s /\ length (q_in s) + 2 <= length (q_out s) + n
           | PrStore v cur => cur = q_tail s /\ length (q_in s) + 2 <= length (q_out s) + n /\ q_buf s cur = v
           end;
    ri_q : match q_co s 0 with
           | CoIdle => True
           | CoTest cur => cur = q_head s
           | CoRead cur => cur = q_head s /\ length (q_out s) < length (q_in s)
           | CoStore v cur => cur = q_head s /\ length (q_out s) < length (q_in s) /\ v = nth (length (q_out s)) (q_in s) 0
           end }.
Lemma succ_mod n a : 0 < n -> (a mod n + 1) mod n = (a + 1) mod n.
Proof. intros H. rewrite Nat.add_mod_idemp_l; lia. Qed.
Lemma mod_inj n a b : 0 < n -> a <= b < a + n -> a mod n = b mod n -> a = b.
Proof.
  intros H [L U] E. pose proof (Nat.div_mod a n ltac:(lia)) as A. pose proof (Nat.div_mod b n ltac:(lia)) as B. rewrite E in A. assert (n * (b / n - a / n) = b - a) by (rewrite Nat.mul_sub_distr_l; lia).
  destruct (b / n - a / n) as [|d] eqn:D; [lia|]. nia.
Qed.
Lemma rinv_new n : 0 < n -> rinv n lring_new.
Proof. intros H. constructor; cbn; try easy; try (now rewrite Nat.mod_0_l by lia); try lia. Qed.
Lemma rinv_step n s l s' : 0 < n -> rinv n s -> spsc l -> lring_step n s l = Some s' -> rinv n s'.
Proof.
  intros Hn [It Ih [Ic1 Ic2] Io Ib Ip Iq] P E. destruct l as [u v|u|u|u]; cbn [spsc] in P; subst u; cbn [lring_step] in E.
  - destruct (q_pr s 0) eqn:A; try discriminate. injection E as <-. constructor; cbn [set_pr q_buf q_head q_tail q_pr q_co q_in q_out]; try rewrite upd_same; easy.
  - destruct (q_pr s 0) as [|v cur|v cur|v cur] eqn:A; try discriminate.
    + destruct (Nat.eqb_spec ((cur + 1) mod n) (q_head s)) as [F|F]; injection E as <-; [constructor; rewrite ?A; easy|]. constructor; cbn [set_pr q_buf q_head q_tail q_pr q_co q_in q_out]; try rewrite upd_same; try easy.
      split; [easy|]. assert (length (q_in s) + 1 <> length (q_out s) + n); [|lia]. intros Q. apply F. rewrite Ip, It, Ih, succ_mod by easy. rewrite Q. replace (length (q_out s) + n) with (length (q_out s) + 1 * n) by lia. now rewrite Nat.mod_add by lia.
    + destruct Ip as [-> Ip]. injection E as <-. constructor; cbn [q_buf q_head q_tail q_pr q_co q_in q_out]; try rewrite upd_same; try easy.
      * intros k Hk. rewrite upd_other; [auto|]. rewrite It. intros Q. assert (k = length (q_in s)); [|lia]. apply (mod_inj n); lia.
      * split; [easy|]. split; [easy|]. apply upd_same.
    + destruct Ip as (-> & Ip & Ib'). injection E as <-. constructor; cbn [q_buf q_head q_tail q_pr q_co q_in q_out]; try rewrite upd_same; rewrite ?app_length; cbn [length]; try easy.
      * rewrite It, succ_mod; easy.
      * lia.
      * rewrite firstn_app. replace (length (q_out s) - length (q_in s)) with 0 by lia. cbn. now rewrite app_nil_r.
      * intros k Hk. destruct (Nat.eq_dec k (length (q_in s))) as [->|K]; [rewrite app_nth2, Nat.sub_diag by lia; cbn; rewrite <- Ib', It; easy|]. rewrite app_nth1 by lia. apply Ib. lia.
      * destruct (q_co s 0); [easy|easy|split; [easy|lia]|]. destruct Iq as (-> & L & ->). split; [easy|]. split; [lia|]. now rewrite app_nth1.
  - destruct (q_co s 0) eqn:A; try discriminate. injection E as <-. constructor; cbn [set_co q_buf q_head q_tail q_pr q_co q_in q_out]; try rewrite upd_same; easy.
  - destruct (q_co s 0) as [|cur|cur|v cur] eqn:A; try discriminate.
    + destruct (Nat.eqb_spec cur (q_tail s)) as [F|F]; injection E as <-; constructor; cbn [set_co q_buf q_head q_tail q_pr q_co q_in q_out]; try rewrite upd_same; try easy.
      split; [easy|]. assert (length (q_out s) <> length (q_in s)); [|lia]. intros Q. apply F. rewrite Iq, It, Ih. now rewrite Q.
    + destruct Iq as [-> Iq]. injection E as <-. constructor; cbn [set_co q_buf q_head q_tail q_pr q_co q_in q_out]; try rewrite upd_same; try easy.
      split; [easy|]. split; [easy|]. rewrite Ih. apply Ib. lia.
    + destruct Iq as (-> & Iq & ->). injection E as <-. constructor; cbn [q_buf q_head q_tail q_pr q_co q_in q_out]; try rewrite upd_same; rewrite ?app_length; cbn [length]; try easy.
      * rewrite Ih, succ_mod; easy.
      * lia.
      * rewrite Io at 1. rewrite Nat.add_1_r. clear - Iq. revert Iq. generalize (length (q_out s)). induction (q_in s) as [|x r IH]; intros [|k] L; cbn in *; try lia; [easy|]. f_equal. apply IH. lia.
      * intros k Hk. apply Ib. lia.
      * destruct (q_pr s 0); try easy; [split; [easy|lia]|]. destruct Ip as (-> & L & B). split; [easy|]. split; [lia|easy].
Qed.
Lemma rinv_run n : 0 < n -> forall ls s s', rinv n s -> (forall l, In l ls -> spsc l) -> lring_run n s ls = Some s' -> rinv n s'.
Proof. intros H. induction ls as [|l r IH]; intros s s' I P E; cbn [lring_run] in E; [now injection E as <-|]. destruct (lring_step n s l) as [s1|] eqn:E1; [|discriminate]. apply (IH s1); [|intros x Hx; apply P; now right|easy]. eapply rinv_step; eauto. apply P. now left. Qed.
(** C77: one producer, one consumer: what was handed out is what was pushed, in order, without loss or repetition: the values pushed are the values handed out followed by those that wait, and at most n-1 wait. *)
Theorem C77_fifo : forall n ls s, 0 < n -> (forall l, In l ls -> spsc l) -> lring_run n lring_new ls = Some s -> exists w, q_in s = q_out s ++ w /\ length w <= n - 1.
Proof.
  intros n ls s H P E. destruct (rinv_run n H ls _ s (rinv_new n H) P E) as [_ _ [C1 C2] O _ _ _]. exists (skipn (length (q_out s)) (q_in s)). split; [rewrite O at 1; symmetry; apply firstn_skipn|]. rewrite skipn_length. lia.
Qed.
(** C77: tryPop answers false only if nothing waits at that moment; if something waits it goes on to hand out the oldest. *)
Theorem C77_empty : forall n ls s s' cur, 0 < n -> (forall l, In l ls -> spsc l) -> lring_run n lring_new ls = Some s -> q_co s 0 = CoTest cur -> lring_step n s (RCons 0) = Some s' ->
  (q_miss s' = S (q_miss s) <-> q_in s = q_out s) /\ (q_in s <> q_out s -> exists s2 s3, lring_run n s' [RCons 0] = Some s2 /\ lring_run n s2 [RCons 0] = Some s3 /\ q_out s3 = q_out s ++ [nth (length (q_out s)) (q_in s) 0]).
Proof.
  intros n ls s s' cur H P E A E1. destruct (rinv_run n H ls _ s (rinv_new n H) P E) as [It Ih [C1 C2] O Ib _ Iq]. rewrite A in Iq. cbn [lring_step] in E1. rewrite A in E1.
  assert (Q : q_in s = q_out s <-> cur = q_tail s).
  { rewrite Iq, It, Ih. split; [intros ->; easy|]. intros M. assert (L : length (q_out s) = length (q_in s)) by (apply (mod_inj n); lia). rewrite O, L. now rewrite firstn_all. }
  destruct (Nat.eqb_spec cur (q_tail s)) as [F|F]; injection E1 as <-; cbn [q_miss set_co]; [tauto|]. split; [split; [lia|tauto]|]. intros NE. eexists. eexists. split; [cbn [lring_run lring_step q_co set_co]; rewrite upd_same; reflexivity|].
  split; [cbn [lring_run lring_step q_co set_co]; rewrite upd_same; reflexivity|]. cbn [q_out q_buf]. do 2 f_equal. rewrite Iq, Ih. apply Ib. split; [lia|]. destruct (Nat.eq_dec (length (q_out s)) (length (q_in s))) as [L|]; [|lia]. exfalso. apply NE. rewrite O, L. now rewrite firstn_all.
Qed.
(** C77: push waits only if n-1 values wait at that moment. *)
Theorem C77_full : forall n ls s s' v cur, 0 < n -> (forall l, In l ls -> spsc l) -> lring_run n lring_new ls = Some s -> q_pr s 0 = PrFull v cur -> lring_step n s (RProd 0) = Some s' ->
  (q_pr s' 0 = PrFull v cur <-> length (q_in s) = length (q_out s) + (n - 1)).
Proof.
  intros n ls s s' v cur H P E A E1. destruct (rinv_run n H ls _ s (rinv_new n H) P E) as [It Ih [C1 C2] O Ib Ip _]. rewrite A in Ip. cbn [lring_step] in E1. rewrite A in E1.
  assert (Q : (cur + 1) mod n = q_head s <-> length (q_in s) = length (q_out s) + (n - 1)).
  { rewrite Ip, It, Ih, succ_mod by easy. split; intros M.
    - destruct (Nat.eq_dec (length (q_in s) + 1) (length (q_out s) + n)) as [|D]; [lia|]. exfalso. assert (length (q_out s) = length (q_in s) + 1) by (apply (mod_inj n); [easy|lia|easy]). lia.
    - replace (length (q_in s) + 1) with (length (q_out s) + 1 * n) by lia. now rewrite Nat.mod_add by lia. }
  rewrite <- Q. destruct (Nat.eqb_spec ((cur + 1) mod n) (q_head s)) as [F|F]; injection E1 as <-; [rewrite A; tauto|]. cbn [set_pr q_pr]. rewrite upd_same. split; [discriminate|tauto].
Qed.
Example C77_case : (forall l, In l [RPush 0 7; RPop 0; RProd 0; RCons 0; RProd 0; RPop 0; RProd 0; RCons 0; RPush 0 8; RCons 0; RProd 0; RCons 0; RProd 0] -> spsc l) /\
  exists s, lring_run 2 lring_new [RPush 0 7; RPop 0; RProd 0; RCons 0; RProd 0; RPop 0; RProd 0; RCons 0; RPush 0 8; RCons 0; RProd 0; RCons 0; RProd 0] = Some s /\ q_out s = [7] /\ q_miss s = 1 /\ q_pr s 0 = PrWrite 8 1.
Proof. split; [intros l Hl; cbn in Hl; repeat destruct Hl as [<-|Hl]; easy|]. eexists. split; [vm_compute; reflexivity|]. easy. Qed.

(** C78: false with two producers or two consumers: a pushed value is lost, a value is handed out twice. *)
Theorem C78_refuted : forall n, 1 < n ->
  (exists ls s, lring_run n lring_new ls = Some s /\ (forall u, q_pr s u = PrIdle) /\ q_in s = [1; 2] /\ q_out s = [2] /\ q_co s 0 = CoIdle /\ forall s', lring_run n s [RPop 0; RCons 0] = Some s' -> q_miss s' = S (q_miss s)) /\
  (exists ls s, lring_run n lring_new ls = Some s /\ (forall u, q_pr s u = PrIdle) /\ q_in s = [1] /\ q_out s = [1; 1]).
Proof.
  intros n H. assert (M1 : 1 mod n = 1) by (rewrite Nat.mod_small; lia).
  assert (RC : forall l r s s1 z, lring_step n s l = Some s1 -> lring_run n s1 r = Some z -> lring_run n s (l :: r) = Some z) by (intros l r s s1 z A B; cbn [lring_run]; now rewrite A).
  split.
  - exists [RPush 0 1; RPush 1 2; RProd 0; RProd 1; RProd 0; RProd 1; RProd 0; RProd 1; RPop 0; RCons 0; RCons 0; RCons 0]. eexists.
    split; [do 12 (eapply RC; [cbn -[Nat.modulo]; rewrite ?M1; cbn -[Nat.modulo]; reflexivity|]); reflexivity|].
    cbn -[Nat.modulo]. split; [intros [|[|u]]; reflexivity|]. do 3 (split; [easy|]). intros s' E. injection E as <-. reflexivity.
  - exists [RPush 0 1; RProd 0; RProd 0; RProd 0; RPop 0; RPop 1; RCons 0; RCons 1; RCons 0; RCons 1; RCons 0; RCons 1]. eexists.
    split; [do 12 (eapply RC; [cbn -[Nat.modulo]; rewrite ?M1; cbn -[Nat.modulo]; reflexivity|]); reflexivity|].
    cbn -[Nat.modulo]. split; [intros [|[|u]]; reflexivity|]. easy.
Qed.
Print Assumptions C75_exclusive. Print Assumptions C75_attempt. Print Assumptions C75_unlock. Print Assumptions C76_refuted. Print Assumptions C76_partial.
Print Assumptions C77_fifo. Print Assumptions C77_empty. Print Assumptions C77_full. Print Assumptions C78_refuted.

(** C78: what holds with any number of producers and consumers: if no push starts while another one is in progress, and no pop while another pop is (the callers hold a mutex of their own on each
    side), the ring is still a bounded FIFO. Missing: pushes at the same time, pops at the same time (C78_refuted). *)
Definition turn (s : lring) (l : rlabel) : Prop :=
  match l with RPush _ _ => forall u, q_pr s u = PrIdle | RPop _ => forall u, q_co s u = CoIdle | _ => True end.
Definition as_one (s : lring) (a b : nat) : lring := mkLR (q_buf s) (q_head s) (q_tail s) (fun _ => q_pr s a) (fun _ => q_co s b) (q_in s) (q_out s) (q_miss s).
Definition one_each (s : lring) (a b : nat) : Prop := (forall u, u <> a -> q_pr s u = PrIdle) /\ (forall u, u <> b -> q_co s u = CoIdle).
Lemma rinv_ext n s s' : q_buf s = q_buf s' -> q_head s = q_head s' -> q_tail s = q_tail s' -> q_pr s 0 = q_pr s' 0 -> q_co s 0 = q_co s' 0 -> q_in s = q_in s' -> q_out s = q_out s' -> rinv n s -> rinv n s'.
Proof. intros A B C D E F G [H1 H2 H3 H4 H5 H6 H7]. rewrite A, B, C, D, E, F, G in *. constructor; assumption. Qed.
Lemma turn_step n s l s' a b : 0 < n -> one_each s a b -> rinv n (as_one s a b) -> turn s l -> lring_step n s l = Some s' -> exists a' b', one_each s' a' b' /\ rinv n (as_one s' a' b').
Proof.
  intros Hn [Oa Ob] I T E.
  assert (STEP : forall l0 s1, spsc l0 -> lring_step n (as_one s a b) l0 = Some s1 -> rinv n s1) by (intros l0 s1 P X; exact (rinv_step n _ l0 s1 Hn I P X)).
  destruct l as [u v|u|u|u]; cbn [turn lring_step] in T, E.
  - destruct (q_pr s u) eqn:P; try discriminate E. injection E as <-. exists u, b. split.
    + split; [intros w N; cbn [set_pr q_pr]; rewrite upd_other by exact N; apply T|exact Ob].
    + assert (X : lring_step n (as_one s a b) (RPush 0 v) = Some (set_pr (as_one s a b) 0 (PrFull v (q_tail s)))) by (cbn [lring_step as_one q_pr]; rewrite T; reflexivity).
      eapply rinv_ext; [..|exact (STEP (RPush 0 v) _ eq_refl X)]; cbn [set_pr as_one q_buf q_head q_tail q_pr q_co q_in q_out]; rewrite ?upd_same; reflexivity.
  - destruct (Nat.eq_dec u a) as [U|U]; [subst u|rewrite (Oa u U) in E; discriminate E]. exists a, b. split.
    + assert (X : exists y, q_co s' = q_co s /\ forall w, w <> a -> q_pr s' w = y w) by (exists (q_pr s'); destruct (q_pr s a); [discriminate E|destruct (Nat.eqb _ _)| |]; injection E as <-; auto).
      destruct X as (_ & C & _). split; [|rewrite C; exact Ob]. intros w N. rewrite <- (Oa w N). destruct (q_pr s a); [discriminate E|destruct (Nat.eqb _ _)| |]; injection E as <-; cbn [set_pr q_pr]; rewrite ?upd_other by exact N; reflexivity.
    + assert (X : exists s1, lring_step n (as_one s a b) (RProd 0) = Some s1 /\ rinv n s1) by
        (cbn [lring_step as_one q_pr]; destruct (q_pr s a) eqn:P; [discriminate E|destruct (Nat.eqb _ _) eqn:Q| |]; eexists; (split; [reflexivity|]); apply (STEP (RProd 0) _ eq_refl); cbn [lring_step as_one q_pr q_head]; rewrite P; rewrite ?Q; reflexivity).
      destruct X as (s1 & X & R). refine (rinv_ext n s1 _ _ _ _ _ _ _ _ R); cbn [lring_step as_one q_pr q_head] in X; destruct (q_pr s a) eqn:P; try discriminate E; try (destruct (Nat.eqb _ _)); injection E as <-; injection X as <-; cbn [set_pr as_one q_buf q_head q_tail q_pr q_co q_in q_out]; rewrite ?upd_same; try reflexivity; exact P || (symmetry; exact P).
  - destruct (q_co s u) eqn:P; try discriminate E. injection E as <-. exists a, u. split.
    + split; [exact Oa|intros w N; cbn [set_co q_co]; rewrite upd_other by exact N; apply T].
    + assert (X : lring_step n (as_one s a b) (RPop 0) = Some (set_co (as_one s a b) 0 (CoTest (q_head s)))) by (cbn [lring_step as_one q_co]; rewrite T; reflexivity).
      eapply rinv_ext; [..|exact (STEP (RPop 0) _ eq_refl X)]; cbn [set_co as_one q_buf q_head q_tail q_pr q_co q_in q_out]; rewrite ?upd_same; reflexivity.
  - destruct (Nat.eq_dec u b) as [U|U]; [subst u|rewrite (Ob u U) in E; discriminate E]. exists a, b. split.
    + split; [intros w N; rewrite <- (Oa w N)|intros w N; rewrite <- (Ob w N)]; destruct (q_co s b); try discriminate E; try (destruct (Nat.eqb _ _)); injection E as <-; cbn [set_co q_pr q_co]; rewrite ?upd_other by exact N; reflexivity.
    + assert (X : exists s1, lring_step n (as_one s a b) (RCons 0) = Some s1 /\ rinv n s1) by
        (cbn [lring_step as_one q_co]; destruct (q_co s b) eqn:P; [discriminate E|destruct (Nat.eqb _ _) eqn:Q| |]; eexists; (split; [reflexivity|]); apply (STEP (RCons 0) _ eq_refl); cbn [lring_step as_one q_co q_tail]; rewrite P; rewrite ?Q; reflexivity).
      destruct X as (s1 & X & R). refine (rinv_ext n s1 _ _ _ _ _ _ _ _ R); cbn [lring_step as_one q_co q_tail] in X; destruct (q_co s b) eqn:P; try discriminate E; try (destruct (Nat.eqb _ _)); injection E as <-; injection X as <-; cbn [set_co as_one q_buf q_head q_tail q_pr q_co q_in q_out]; rewrite ?upd_same; try reflexivity; exact P || (symmetry; exact P).
Qed.
Theorem C78_turns_partial : forall n ls s, 0 < n -> (forall a l b s1, ls = a ++ l :: b -> lring_run n lring_new a = Some s1 -> turn s1 l) -> lring_run n lring_new ls = Some s ->
  exists w, q_in s = q_out s ++ w /\ length w <= n - 1.
Proof.
  intros n ls s Hn T E.
  assert (G : forall ls s0 s, (exists a b, one_each s0 a b /\ rinv n (as_one s0 a b)) -> (forall a l b s1, ls = a ++ l :: b -> lring_run n s0 a = Some s1 -> turn s1 l) -> lring_run n s0 ls = Some s -> exists a b, rinv n (as_one s a b)).
  { clear ls s T E. induction ls as [|l r IH]; intros s0 s (a & b & O & I) T E; cbn [lring_run] in E; [injection E as <-; exists a, b; exact I|].
    destruct (lring_step n s0 l) as [s1|] eqn:S; [|discriminate E]. apply (IH s1 s); [exact (turn_step n s0 l s1 a b Hn O I (T [] l r s0 eq_refl eq_refl) S)| |exact E].
    intros a' l' b' s2 -> R. apply (T (l :: a') l' b' s2 eq_refl). cbn [lring_run]. rewrite S. exact R. }
  destruct (G ls lring_new s) as (a & b & [_ _ [C1 C2] O _ _ _]); [exists 0, 0; split; [split; reflexivity|exact (rinv_new n Hn)]|exact T|exact E|]. cbn [as_one q_in q_out] in *.
  exists (skipn (length (q_out s)) (q_in s)). split; [rewrite O at 1; symmetry; apply firstn_skipn|]. rewrite skipn_length. lia.
Qed.
(** Two producers and two consumers that take turns. *)
Definition c78_ls : list rlabel := [RPush 0 7; RProd 0; RProd 0; RPop 0; RProd 0; RPush 1 8; RProd 1; RCons 0; RProd 1; RCons 0; RProd 1; RCons 0; RPop 1; RCons 1; RCons 1; RCons 1].
Lemma turns_check n : forall ls s, (fix go s ls := match ls with [] => True | l :: r => turn s l /\ match lring_step n s l with Some s1 => go s1 r | None => True end end) s ls ->
  forall a l b s1, ls = a ++ l :: b -> lring_run n s a = Some s1 -> turn s1 l.
Proof.
  induction ls as [|l r IH]; intros s H a l0 b s1 E R; [destruct a; discriminate E|]. destruct H as [H1 H2]. destruct a as [|x a]; cbn [app] in E; injection E as <- ->; cbn [lring_run] in R; [injection R as <-; exact H1|].
  destruct (lring_step n s l) as [s2|]; [|discriminate R]. exact (IH s2 H2 a l0 b s1 eq_refl R).
Qed.
Example C78_turns_case : (forall a l b s1, c78_ls = a ++ l :: b -> lring_run 3 lring_new a = Some s1 -> turn s1 l) /\ exists s, lring_run 3 lring_new c78_ls = Some s /\ q_in s = [7; 8] /\ q_out s = [7; 8].
Proof.
  split; [|eexists; split; [vm_compute; reflexivity|split; reflexivity]]. apply turns_check. unfold c78_ls.
  vm_compute. repeat match goal with |- _ /\ _ => split end; try exact I; intros [|[|u]]; reflexivity.
Qed.
Print Assumptions C78_turns_partial.
