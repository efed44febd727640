(** C126: the lock-free ring and the spin lock under the memory orders that the code names, where loads may return old values (WmSpec). *)
From Verif Require Import ListUtil WmSpec WmModel WmProofs.
Local Open Scope nat_scope.
Local Open Scope list_scope.

(** One producer, one consumer: they never access a slot of the ring at the same time, nor one before it may see what the other did. *)
Theorem C126_no_race : forall n ls, 0 < n -> wring_run n wring_new ls <> WRace.
Proof. intros n ls Hn. apply (RWI_run n Hn ls wring_new (RWI_new n Hn)). Qed.
Print Assumptions C126_no_race.

Lemma run_RWI n ls s : 0 < n -> wring_run n wring_new ls = WStep s -> RWI n s.
Proof. intros Hn. apply (RWI_run n Hn ls wring_new (RWI_new n Hn)). Qed.

(** Whatever the loads return: the values pushed are the values handed out followed by those that wait, and at most n-1 wait. *)
Theorem C126_fifo : forall n ls s, 0 < n -> wring_run n wring_new ls = WStep s -> exists w, wr_in s = wr_out s ++ w /\ length w <= n - 1.
Proof.
  intros n ls s Hn E. pose proof (run_RWI n ls s Hn E) as [_ _ _ _ _ Gp Gc _ _ Pb Cb O _ _ _]. exists (skipn (length (wr_out s)) (wr_in s)). split; [rewrite O at 1; symmetry; apply firstn_skipn|].
  pose proof (g_h _ _ _ _ _ Gp). rewrite skipn_length. lia.
Qed.
Print Assumptions C126_fifo.

Lemma va_upd (m : wmem) u w a x : (a = u -> va (m_vw m u) x <= va w x) -> va (m_vw m a) x <= va (upd (m_vw m) u w a) x.
Proof. intros H. unfold upd. destruct (Nat.eqb_spec a u) as [->|]; [now apply H|lia]. Qed.
Lemma see_le y t v x : va v x <= va (v_see y t v) x.
Proof. cbn. unfold upd. destruct (Nat.eqb_spec x y) as [->|]; lia. Qed.
Lemma load_le o u y t m v m' a x : w_load o u y t m = Some (v, m') -> va (m_vw m a) x <= va (m_vw m' a) x.
Proof.
  intros E. destruct (load_inv _ _ _ _ _ _ _ E) as (w & _ & _ & ->). cbn [set_vw m_vw]. apply va_upd. intros _. etransitivity; [|apply see_le]. destruct (acq o); [cbn; lia|lia].
Qed.
Lemma access_le u l f m v m' a x : w_access u l f m = Some (v, m') -> va (m_vw m a) x <= va (m_vw m' a) x.
Proof. unfold w_access. destruct (m_na m l) as [v0 k]. destruct (Nat.eqb _ _); [|discriminate]. intros E. injection E as _ <-. cbn [m_vw]. apply va_upd. intros _. cbn. lia. Qed.
Lemma store_le o u y v m a x : va (m_vw m a) x <= va (m_vw (w_store o u y v m) a) x.
Proof. unfold w_store. cbn [m_vw]. apply va_upd. intros _. apply see_le. Qed.
Lemma step_le n s l s' a x : wring_step n s l = WStep s' -> va (m_vw (wr_m s) a) x <= va (m_vw (wr_m s') a) x.
Proof.
  intros E. destruct l as [v t|t|t|t| |]; cbn [wring_step] in E.
  - destruct (wr_p s); try discriminate. destruct (w_load _ _ _ _ _) as [[]|] eqn:W; [|discriminate]. injection E as <-. eapply load_le; exact W.
  - destruct (wr_p s); try discriminate.
    + destruct (w_load _ _ _ _ _) as [[]|] eqn:W; [|discriminate]. injection E as <-. eapply load_le; exact W.
    + destruct (w_access _ _ _ _) as [[]|] eqn:W; [|discriminate]. injection E as <-. eapply access_le; exact W.
    + injection E as <-. apply store_le.
  - destruct (wr_c s); try discriminate. destruct (w_load _ _ _ _ _) as [[]|] eqn:W; [|discriminate]. injection E as <-. eapply load_le; exact W.
  - destruct (wr_c s); try discriminate.
    + destruct (w_load _ _ _ _ _) as [[h m']|] eqn:W; [|discriminate]. injection E as <-. destruct (Nat.eqb _ _); cbn [wr_m]; eapply load_le; exact W.
    + destruct (w_access _ _ _ _) as [[]|] eqn:W; [|discriminate]. injection E as <-. eapply access_le; exact W.
    + injection E as <-. apply store_le.
  - injection E as <-. cbn [wr_m]. unfold w_tell, set_vw. cbn [m_vw]. apply va_upd. intros _. cbn. lia.
  - injection E as <-. cbn [wr_m]. unfold w_tell, set_vw. cbn [m_vw]. apply va_upd. intros _. cbn. lia.
Qed.
Lemma run_le n a x : forall ls s s', wring_run n s ls = WStep s' -> va (m_vw (wr_m s) a) x <= va (m_vw (wr_m s') a) x.
Proof.
  induction ls as [|l r IH]; intros s s' E; cbn [wring_run] in E; [injection E as <-; lia|]. destruct (wring_step n s l) as [| |s1] eqn:E1; try discriminate.
  pose proof (step_le n s l s1 a x E1). specialize (IH _ _ E). lia.
Qed.
Lemma run_app n : forall l1 l2 s s', wring_run n s (l1 ++ l2) = WStep s' -> exists s1, wring_run n s l1 = WStep s1 /\ wring_run n s1 l2 = WStep s'.
Proof.
  induction l1 as [|l r IH]; intros l2 s s' E; cbn [app wring_run] in *; [now exists s|]. destruct (wring_step n s l) as [| |s0]; try discriminate. now apply IH.
Qed.

(** tryPop answers false only if all that the consumer was told of has been handed out: every push that ended before the producer last told the consumer. *)
Theorem C126_empty : forall n l1 l2 s1 s t s', 0 < n -> wring_run n wring_new l1 = WStep s1 -> wring_run n wring_new (l1 ++ WTellC :: l2) = WStep s ->
  wring_step n s (WCons t) = WStep s' -> wr_miss s' = S (wr_miss s) -> length (wr_in s1) <= length (wr_out s).
Proof.
  intros n l1 l2 s1 s t s' Hn E1 E E2 M. pose proof (run_RWI n _ _ Hn E1) as I1. pose proof (run_RWI n _ _ Hn E) as I. apply run_app in E as (s1' & E1' & E). rewrite E1 in E1'. injection E1' as <-.
  cbn [wring_run wring_step] in E. apply (run_le n 1 TAIL) in E. cbn [wr_m] in E. unfold w_tell in E. cbn [set_vw m_vw] in E. rewrite upd_same in E. cbn [v_join va] in E. rewrite (rw_pt _ _ I1) in E.
  cbn [wring_step] in E2. destruct (wr_c s) as [|cur|cur|v cur] eqn:P; try discriminate.
  - destruct (w_load Acquire 1 TAIL t (wr_m s)) as [[h m']|] eqn:W; [|discriminate]. injection E2 as <-. destruct (load_inv _ _ _ _ _ _ _ W) as (w & T1 & T2 & ->). destruct (rw_tm _ _ I _ _ _ T2) as (-> & _ & _).
    assert (T3 : t < S (length (wr_in s))) by (rewrite <- (rw_tl _ _ I); apply nth_error_Some; rewrite T2; discriminate).
    destruct (Nat.eqb_spec cur (t mod n)) as [Q|Q]; cbn [wr_miss] in M; [|lia]. pose proof (rw_q _ _ I) as Iq. rewrite P in Iq. rewrite Iq in Q. pose proof (rw_cb _ _ I). pose proof (rw_pb _ _ I). pose proof (g_h _ _ _ _ _ (rw_gp _ _ I)).
    apply mod_eq in Q; lia.
  - destruct (w_access _ _ _ _) as [[]|]; [|discriminate]. injection E2 as <-. cbn [wr_miss] in M. lia.
  - injection E2 as <-. cbn [wr_miss] in M. lia.
Qed.
Print Assumptions C126_empty.
(** And push goes on waiting only if the ring is full as far as the producer was told. *)
Theorem C126_full : forall n l1 l2 s1 s t s' v cur, 0 < n -> wring_run n wring_new l1 = WStep s1 -> wring_run n wring_new (l1 ++ WTellP :: l2) = WStep s ->
  wr_p s = WpFull v cur -> wring_step n s (WProd t) = WStep s' -> wr_p s' = WpFull v cur -> length (wr_out s1) + (n - 1) <= length (wr_in s).
Proof.
  intros n l1 l2 s1 s t s' v cur Hn E1 E P E2 P2. pose proof (run_RWI n _ _ Hn E1) as I1. pose proof (run_RWI n _ _ Hn E) as I. apply run_app in E as (s1' & E1' & E). rewrite E1 in E1'. injection E1' as <-.
  cbn [wring_run wring_step] in E. apply (run_le n 0 HEAD) in E. cbn [wr_m] in E. unfold w_tell in E. cbn [set_vw m_vw] in E. rewrite upd_same in E. cbn [v_join va] in E. rewrite (rw_ch _ _ I1) in E.
  cbn [wring_step] in E2. rewrite P in E2. destruct (w_load Acquire 0 HEAD t (wr_m s)) as [[h m']|] eqn:W; [|discriminate]. injection E2 as <-. destruct (load_inv _ _ _ _ _ _ _ W) as (w & T1 & T2 & ->). destruct (rw_hm _ _ I _ _ _ T2) as (-> & _ & _).
  assert (T3 : t < S (length (wr_out s))) by (rewrite <- (rw_hl _ _ I); apply nth_error_Some; rewrite T2; discriminate). cbn [wr_p] in P2. destruct (Nat.eqb_spec ((cur + 1) mod n) (t mod n)) as [Q|Q]; [|discriminate].
  pose proof (rw_p _ _ I) as Ip. rewrite P in Ip. rewrite Ip, Nat.add_mod_idemp_l in Q by lia. pose proof (rw_cb _ _ I). pose proof (rw_pb _ _ I). pose proof (g_t _ _ _ _ _ (rw_gc _ _ I)).
  destruct (Nat.eq_dec (length (wr_in s) + 1) (t + n)) as [X|X]; [lia|]. exfalso. symmetry in Q. apply mod_eq in Q; lia.
Qed.
Print Assumptions C126_full.
(** No call is stuck between its loads: a load can always return the newest value, and the other actions are always possible. *)
Theorem C126_enabled : forall n ls s, 0 < n -> wring_run n wring_new ls = WStep s ->
  (wr_p s = WpIdle -> forall v, exists t s', wring_step n s (WPush v t) = WStep s') /\ (wr_p s <> WpIdle -> exists t s', wring_step n s (WProd t) = WStep s') /\
  (wr_c s = WcIdle -> exists t s', wring_step n s (WPop t) = WStep s') /\ (wr_c s <> WcIdle -> exists t s', wring_step n s (WCons t) = WStep s').
Proof.
  intros n ls s Hn E. pose proof (run_RWI n ls s Hn E) as I.
  assert (Lt : forall o u, u = 0 \/ u = 1 -> exists p, w_load o u TAIL (length (wr_in s)) (wr_m s) = Some p).
  { intros o u Hu. unfold w_load. assert (X : va (m_vw (wr_m s) u) TAIL <= length (wr_in s)) by (destruct Hu as [-> | ->]; [apply (g_t _ _ _ _ _ (rw_gp _ _ I))|apply (g_t _ _ _ _ _ (rw_gc _ _ I))]).
    destruct (Nat.ltb_spec (length (wr_in s)) (va (m_vw (wr_m s) u) TAIL)); [lia|]. destruct (nth_error (m_at (wr_m s) TAIL) (length (wr_in s))) as [[v w]|] eqn:N; [eexists; reflexivity|]. apply nth_error_None in N. rewrite (rw_tl _ _ I) in N. lia. }
  assert (Lh : forall o u, u = 0 \/ u = 1 -> exists p, w_load o u HEAD (length (wr_out s)) (wr_m s) = Some p).
  { intros o u Hu. unfold w_load. assert (X : va (m_vw (wr_m s) u) HEAD <= length (wr_out s)) by (destruct Hu as [-> | ->]; [apply (g_h _ _ _ _ _ (rw_gp _ _ I))|apply (g_h _ _ _ _ _ (rw_gc _ _ I))]).
    destruct (Nat.ltb_spec (length (wr_out s)) (va (m_vw (wr_m s) u) HEAD)); [lia|]. destruct (nth_error (m_at (wr_m s) HEAD) (length (wr_out s))) as [[v w]|] eqn:N; [eexists; reflexivity|]. apply nth_error_None in N. rewrite (rw_hl _ _ I) in N. lia. }
  split; [|split; [|split]].
  - intros P v. destruct (Lt Relaxed 0 (or_introl eq_refl)) as [[c m'] X]. exists (length (wr_in s)). eexists. cbn [wring_step]. rewrite P, X. reflexivity.
  - intros P. pose proof (fun t => RWI_safe n s (WProd t) Hn I) as S. cbn [wring_step] in *. destruct (wr_p s) as [|v cur|v cur|v cur]; [contradiction| | |].
    + destruct (Lh Acquire 0 (or_introl eq_refl)) as [[c m'] X]. exists (length (wr_out s)). eexists. rewrite X. reflexivity.
    + specialize (S 0). exists 0. destruct (w_access _ _ _ _) as [[]|]; [eexists; reflexivity|contradiction].
    + exists 0. eexists. reflexivity.
  - intros P. destruct (Lh Relaxed 1 (or_intror eq_refl)) as [[c m'] X]. exists (length (wr_out s)). eexists. cbn [wring_step]. rewrite P, X. reflexivity.
  - intros P. pose proof (fun t => RWI_safe n s (WCons t) Hn I) as S. cbn [wring_step] in *. destruct (wr_c s) as [|cur|cur|v cur]; [contradiction| | |].
    + destruct (Lt Acquire 1 (or_intror eq_refl)) as [[c m'] X]. exists (length (wr_in s)). eexists. rewrite X. reflexivity.
    + specialize (S 0). exists 0. destruct (w_access _ _ _ _) as [[]|]; [eexists; reflexivity|contradiction].
    + exists 0. eexists. reflexivity.
Qed.
Print Assumptions C126_enabled.

(** The spin lock: at most one thread is inside, and what threads do to plain objects while they are inside is never a data race: each sees all that was done inside before. *)
Theorem C126_lock : forall ls, wlock_run wlock_new ls <> WlRace /\
  (forall s u v, wlock_run wlock_new ls = WlStep s -> wl_th s u = WsIn -> wl_th s v = WsIn -> u = v).
Proof. intros ls. destruct (WLI_run ls wlock_new WLI_new) as [R S]. split; [exact R|]. intros s u v E. apply (li_one _ (S s E)). Qed.
Print Assumptions C126_lock.

(** The consumer reads an old tail_ although a push has ended; after it was told it finds the value. A second value goes to the other slot of a ring of three, and the producer waits for the first slot. *)
Definition wm_ls : list wlabel := [WPush 7 0; WProd 0; WProd 0; WProd 0; WPop 0; WCons 0].
Definition wm_ls2 : list wlabel := [WPush 8 1; WProd 0; WProd 0; WProd 0; WPush 9 2; WProd 0; WPop 0; WCons 2; WCons 0; WCons 0; WProd 1; WProd 0; WProd 0; WPop 1; WCons 2; WCons 0].
Example C126_case : (exists s, wring_run 3 wring_new wm_ls = WStep s /\ wr_in s = [7] /\ wr_out s = [] /\ wr_miss s = 1) /\
  (exists s, wring_run 3 wring_new (wm_ls ++ WTellC :: wm_ls2) = WStep s /\ wr_in s = [7; 8; 9] /\ wr_out s = [7] /\ wr_c s = WcStore 8 1 /\ wr_miss s = 1) /\
  wring_run 3 wring_new (wm_ls ++ WTellC :: [WPop 0; WCons 0]) = WNo.
Proof. split; [eexists; split; [vm_compute; reflexivity|vm_compute; auto]|]. split; [eexists; split; [vm_compute; reflexivity|vm_compute; auto]|]. vm_compute. reflexivity. Qed.
Example C126_lock_case : exists s, wlock_run wlock_new [WlCall 1; WlTas 1; WlAccess 1 5 S; WlTry 2; WlCall 3; WlTas 3; WlUnlock 1; WlCall 4; WlStale 4 1; WlTas 3; WlAccess 3 5 S; WlUnlock 3; WlTry 2; WlAccess 2 5 S] = WlStep s /\
  m_na (wl_m s) 5 = (3, 3) /\ wl_th s 2 = WsIn.
Proof. eexists. split; [vm_compute; reflexivity|]. split; vm_compute; reflexivity. Qed.
