From Verif Require Import ListUtil WmSpec WmModel.
Local Open Scope nat_scope.
Local Open Scope list_scope.

(** ** The spin lock *)
Definition cnt (m : wmem) (l : nat) : nat := snd (m_na m l).
Definition below (m : wmem) (v : view) : Prop := forall l, vn v l <= cnt m l.
Definition full (m : wmem) (v : view) : Prop := forall l, vn v l = cnt m l.
Lemma below_join m a b : below m a -> below m b -> below m (v_join a b).
Proof. intros A B l. cbn. specialize (A l). specialize (B l). lia. Qed.
Lemma full_join m a b : full m a -> below m b -> full m (v_join a b).
Proof. intros A B l. cbn. specialize (A l). specialize (B l). lia. Qed.
Lemma full_join_r m a b : below m a -> full m b -> full m (v_join a b).
Proof. intros A B l. cbn. specialize (A l). specialize (B l). lia. Qed.
Lemma full_below m a : full m a -> below m a.
Proof. intros A l. now rewrite A. Qed.
Lemma below_none m : below m v_none.
Proof. intros l. cbn. lia. Qed.

Record WLI (s : wlock) : Prop := {
  li_view : forall u, below (wl_m s) (m_vw (wl_m s) u);
  li_msg : forall v w, In (v, w) (m_at (wl_m s) FLAG) -> below (wl_m s) w;
  li_one : forall u v, wl_th s u = WsIn -> wl_th s v = WsIn -> u = v;
  li_in : forall u, wl_th s u = WsIn -> full (wl_m s) (m_vw (wl_m s) u);
  li_last : exists p v w, m_at (wl_m s) FLAG = p ++ [(v, w)] /\ (v = 0 <-> forall u, wl_th s u <> WsIn) /\ (v = 0 -> full (wl_m s) w) }.
Lemma WLI_new : WLI wlock_new.
Proof.
  constructor; cbn.
  - intros u l. cbn. lia.
  - intros v w [E|[]]. injection E as _ <-. apply below_none.
  - discriminate.
  - discriminate.
  - exists [], 0, v_none. split; [reflexivity|]. split; [split; [discriminate|reflexivity]|]. intros _ l. reflexivity.
Qed.
Lemma tas_WLI o u s : acq o = true -> wl_th s u <> WsIn -> WLI s -> WLI (tas o u s).
Proof.
  intros A N [Iv Im Io Ii (p & v & w & El & E0 & Ef)]. unfold tas, w_rmw. rewrite El, last_last, A. set (m := wl_m s) in *.
  assert (Bw : below m w) by (apply (Im v); rewrite El; apply in_or_app; right; now left).
  assert (Bn : below m (v_join (m_vw m u) w)) by (apply below_join; auto).
  assert (Bs : forall (b : bool), below m (v_join w (if b then v_see FLAG (length (p ++ [(v, w)])) (v_join (m_vw m u) w) else v_see FLAG (length (p ++ [(v, w)])) v_none))).
  { intros b. apply below_join; [exact Bw|]. destruct b; intros l; cbn; [|lia]. pose proof (Iv u l). pose proof (Bw l). lia. }
  constructor; cbn [wl_m wl_th m_vw m_na m_at].
  - intros x l. unfold upd. destruct (Nat.eqb_spec x u) as [->|]; [apply (Bn l)|apply (Iv x l)].
  - rewrite upd_same. intros v1 w1 H. apply in_app_or in H as [H|[H|[]]]; [apply (Im v1); now rewrite El|]. injection H as _ <-. apply Bs.
  - intros a b. destruct (Nat.eqb_spec v 0) as [V|V]; [|apply Io]. pose proof (proj1 E0 V) as F. unfold upd. destruct (Nat.eqb_spec a u) as [->|]; destruct (Nat.eqb_spec b u) as [->|]; intros X Y; auto; exfalso; eapply F; eassumption.
  - intros a H l. change (cnt (mkM (upd (m_at m) FLAG _) (m_na m) _) l) with (cnt m l). unfold upd. destruct (Nat.eqb_spec v 0) as [V|V].
    + unfold upd in H. destruct (Nat.eqb_spec a u) as [Eu|]; [|exfalso; eapply (proj1 E0 V); eassumption]. cbn [v_see vn]. apply (full_join_r m); auto.
    + destruct (Nat.eqb_spec a u) as [Eu|]; [congruence|]. now apply Ii.
  - rewrite upd_same. exists (p ++ [(v, w)]). eexists. eexists. split; [reflexivity|]. split; [|discriminate]. split; [discriminate|]. intros F. exfalso. destruct (Nat.eqb_spec v 0) as [V|V].
    + apply (F u). apply upd_same.
    + apply V. apply E0. exact F.
Qed.
Lemma WLI_step s l s' : WLI s -> wlock_step s l = WlStep s' -> WLI s'.
Proof.
  intros I E. destruct l as [u|u|u|u l f|u t|u|u v]; cbn [wlock_step] in E.
  - destruct (wl_th s u) eqn:U; try discriminate. injection E as <-. destruct I as [Iv Im Io Ii (p & v & w & El & E0 & Ef)].
    assert (X : forall a, upd (wl_th s) u WsWant a = WsIn <-> wl_th s a = WsIn) by (intros a; unfold upd; destruct (Nat.eqb_spec a u) as [->|]; [rewrite U; split; discriminate|tauto]).
    constructor; cbn [wl_m wl_th]; auto.
    + intros a b A B. apply X in A. apply X in B. now apply Io.
    + intros a A. apply X in A. now apply Ii.
    + exists p, v, w. split; [exact El|]. split; [|exact Ef]. rewrite E0. split; intros F a A; apply (F a); apply X; exact A.
  - destruct (wl_th s u) eqn:U; try discriminate. injection E as <-. apply tas_WLI; [reflexivity|congruence|exact I].
  - destruct (wl_th s u) eqn:U; try discriminate. injection E as <-. apply tas_WLI; [reflexivity|congruence|exact I].
  - destruct (wl_th s u) eqn:U; try discriminate. destruct (w_access u l f (wl_m s)) as [[v m']|] eqn:W; [|discriminate]. injection E as <-.
    destruct I as [Iv Im Io Ii (p & x & w & El & E0 & Ef)]. unfold w_access in W. destruct (m_na (wl_m s) l) as [v0 k] eqn:N. destruct (Nat.eqb_spec (vn (m_vw (wl_m s) u) l) k) as [Q|Q]; [|discriminate]. injection W as <- <-.
    set (m := wl_m s) in *. set (m' := mkM _ _ _).
    assert (C : forall y, cnt m' y = if Nat.eqb y l then S k else cnt m y) by (intros y; unfold m', cnt; cbn [m_na]; unfold upd; destruct (Nat.eqb_spec y l); reflexivity).
    assert (Ck : cnt m l = k) by (unfold cnt; now rewrite N).
    assert (B : forall z, below m z -> below m' z) by (intros z Hz y; rewrite C; destruct (Nat.eqb_spec y l) as [->|]; [specialize (Hz l); lia|apply Hz]).
    constructor; cbn [wl_m wl_th].
    + intros a. unfold m' at 2. cbn [m_vw]. unfold upd at 1. destruct (Nat.eqb_spec a u) as [->|]; [|apply B, Iv]. intros y. cbn [vn]. rewrite C. unfold upd. destruct (Nat.eqb_spec y l); [lia|apply Iv].
    + intros v1 w1 H. apply B. eapply Im. exact H.
    + exact Io.
    + intros a A. assert (a = u) by now apply Io. subst a. intros y. unfold m' at 1. cbn [m_vw]. rewrite upd_same. cbn [vn]. rewrite C. unfold upd. destruct (Nat.eqb_spec y l); [reflexivity|now apply Ii].
    + exists p, x, w. split; [exact El|]. split; [exact E0|]. intros X. exfalso. now apply (proj1 E0 X u).
  - assert (W : exists m', w_load Acquire u FLAG t (wl_m s) = Some (1, m') /\ s' = mkWL m' (wl_th s) /\ wl_th s u <> WsIn).
    { destruct (wl_th s u) eqn:U; try discriminate; destruct (w_load Acquire u FLAG t (wl_m s)) as [[[|[|]] m']|]; try discriminate; injection E as <-; exists m'; repeat split; discriminate. }
    destruct W as (m' & W & -> & U). unfold w_load in W. destruct (Nat.ltb _ _); [discriminate|]. destruct (nth_error (m_at (wl_m s) FLAG) t) as [[v w]|] eqn:N; [|discriminate]. injection W as -> <-.
    destruct I as [Iv Im Io Ii (p & x & w1 & El & E0 & Ef)]. assert (Bw : below (wl_m s) w) by (eapply Im; eapply nth_error_In; exact N).
    constructor; cbn [wl_m wl_th set_vw m_vw m_na m_at acq].
    + intros a l. unfold upd. destruct (Nat.eqb_spec a u) as [->|]; [|apply (Iv a l)]. apply (below_join _ _ _ (Iv u) Bw l).
    + exact Im.
    + exact Io.
    + intros a A l. unfold upd. destruct (Nat.eqb_spec a u) as [->|]; [contradiction|]. now apply (Ii a A l).
    + exists p, x, w1. auto.
  - destruct (wl_th s u) eqn:U; try discriminate. injection E as <-. destruct I as [Iv Im Io Ii (p & v & w & El & E0 & Ef)]. unfold w_store. cbn [rel].
    assert (X : forall a, upd (wl_th s) u WsOut a <> WsIn) by (intros a; unfold upd; destruct (Nat.eqb_spec a u) as [->|D]; [discriminate|]; intros A; apply D; now apply Io).
    constructor; cbn [wl_m wl_th m_vw m_na m_at].
    + intros a l. unfold upd. destruct (Nat.eqb_spec a u) as [->|]; [apply (Iv u l)|apply (Iv a l)].
    + rewrite upd_same. intros v1 w1 H. apply in_app_or in H as [H|[H|[]]]; [eapply Im; exact H|]. injection H as _ <-. intros l. apply (Iv u l).
    + intros a b A. now apply X in A.
    + intros a A. now apply X in A.
    + rewrite upd_same. eexists. eexists. eexists. split; [reflexivity|]. split; [split; [intros _; exact X|reflexivity]|]. intros _ l. now apply (Ii u U l).
  - injection E as <-. destruct I as [Iv Im Io Ii (p & x & w & El & E0 & Ef)]. unfold w_tell. constructor; cbn [wl_m wl_th set_vw m_vw m_na m_at].
    + intros a l. unfold upd. destruct (Nat.eqb_spec a v) as [->|]; [|apply (Iv a l)]. apply (below_join _ _ _ (Iv v) (Iv u) l).
    + exact Im.
    + exact Io.
    + intros a A l. unfold upd. destruct (Nat.eqb_spec a v) as [->|]; [|now apply (Ii a A l)]. apply (full_join _ _ _ (Ii v A) (Iv u) l).
    + exists p, x, w. auto.
Qed.
Lemma WLI_safe s l : WLI s -> wlock_step s l <> WlRace.
Proof.
  intros [Iv Im Io Ii _] E. destruct l as [u|u|u|u l f|u t|u|u v]; cbn [wlock_step] in E.
  - destruct (wl_th s u); discriminate.
  - destruct (wl_th s u); discriminate.
  - destruct (wl_th s u); discriminate.
  - destruct (wl_th s u) eqn:U; try discriminate. specialize (Ii u U l). unfold cnt in Ii. unfold w_access in E. destruct (m_na (wl_m s) l) as [v k]. cbn [snd] in Ii. rewrite Ii, Nat.eqb_refl in E. discriminate.
  - destruct (wl_th s u); try discriminate; destruct (w_load _ _ _ _ _) as [[[|[|]] m']|]; discriminate.
  - destruct (wl_th s u); discriminate.
  - discriminate.
Qed.
Lemma WLI_run : forall ls s, WLI s -> wlock_run s ls <> WlRace /\ (forall s', wlock_run s ls = WlStep s' -> WLI s').
Proof.
  induction ls as [|l r IH]; intros s I; cbn [wlock_run]; [split; [discriminate|intros s' E; now injection E as <-]|].
  destruct (wlock_step s l) as [| |s1] eqn:E; [split; discriminate|now apply WLI_safe in E|]. apply IH. eapply WLI_step; eassumption.
Qed.

(** ** The ring *)
Lemma mod_eq n a b : 0 < n -> a <= b < a + n -> a mod n = b mod n -> a = b.
Proof.
  intros H [L U] E. pose proof (Nat.div_mod a n ltac:(lia)) as A. pose proof (Nat.div_mod b n ltac:(lia)) as B. rewrite E in A. assert (n * (b / n - a / n) = b - a) by (rewrite Nat.mul_sub_distr_l; lia).
  destruct (b / n - a / n) as [|d] eqn:D; [lia|]. nia.
Qed.
(** How many of the first [a] values go to slot [i]. *)
Fixpoint cntp (n a i : nat) : nat := match a with O => 0 | S b => cntp n b i + (if Nat.eqb (b mod n) i then 1 else 0) end.
Lemma cntp_mono n i : forall a b, a <= b -> cntp n a i <= cntp n b i.
Proof. intros a b H. induction H as [|b H IH]; [lia|]. cbn [cntp]. lia. Qed.
Lemma cntp_same n k : 0 < n -> forall d a, a + d = k -> d < n -> cntp n a (k mod n) = cntp n k (k mod n).
Proof.
  intros Hn. induction d as [|d IH]; intros a E L; [now replace a with k by lia|]. rewrite <- (IH (S a)) by lia. cbn [cntp]. destruct (Nat.eqb_spec (a mod n) (k mod n)) as [Q|Q]; [|lia]. apply mod_eq in Q; lia.
Qed.
Lemma cntp_next n k : 0 < n -> forall d a, S k + d = a -> d < n -> cntp n a (k mod n) = S (cntp n k (k mod n)).
Proof.
  intros Hn. induction d as [|d IH]; intros a <- L.
  - rewrite Nat.add_0_r. cbn [cntp]. rewrite Nat.eqb_refl. lia.
  - rewrite Nat.add_succ_r. cbn [cntp]. rewrite (IH (S k + d)) by lia. destruct (Nat.eqb_spec ((S k + d) mod n) (k mod n)) as [Q|Q]; [|lia]. symmetry in Q. apply mod_eq in Q; lia.
Qed.

Record good (n I O : nat) (c : nat -> nat) (v : view) : Prop := {
  g_h : va v HEAD <= O; g_t : va v TAIL <= I;
  g_nh : forall i, 2 * cntp n (va v HEAD) i <= vn v i;
  g_nt : forall i, 2 * cntp n (va v TAIL) i <= vn v i + 1;
  g_c : forall i, vn v i <= c i }.
Lemma good_mono n I O c I' O' c' v : I <= I' -> O <= O' -> (forall i, c i <= c' i) -> good n I O c v -> good n I' O' c' v.
Proof. intros A B C [G1 G2 G3 G4 G5]. constructor; auto; try lia. intros i. specialize (G5 i). specialize (C i). lia. Qed.
Lemma good_join n I O c v w : good n I O c v -> good n I O c w -> good n I O c (v_join v w).
Proof.
  intros [A1 A2 A3 A4 A5] [B1 B2 B3 B4 B5]. constructor; cbn [v_join va vn].
  - lia.
  - lia.
  - intros i. specialize (A3 i). specialize (B3 i). destruct (Nat.max_spec (va v HEAD) (va w HEAD)) as [[_ ->]|[_ ->]]; lia.
  - intros i. specialize (A4 i). specialize (B4 i). destruct (Nat.max_spec (va v TAIL) (va w TAIL)) as [[_ ->]|[_ ->]]; lia.
  - intros i. specialize (A5 i). specialize (B5 i). lia.
Qed.
Lemma see_va x t v y : t <= va v x -> va (v_see x t v) y = va v y.
Proof. intros H. cbn. unfold upd. destruct (Nat.eqb_spec y x) as [->|]; lia. Qed.
Lemma good_see n I O c x t v : t <= va v x -> good n I O c v -> good n I O c (v_see x t v).
Proof. intros H [A1 A2 A3 A4 A5]. constructor; rewrite ?(see_va x t v) by exact H; auto. Qed.

Definition storing_p (p : wprod) : nat := match p with WpStore _ _ => 1 | _ => 0 end.
Definition storing_c (c : wcons) : nat := match c with WcStore _ _ => 1 | _ => 0 end.
Record RWI (n : nat) (s : wring) : Prop := {
  rw_tl : length (m_at (wr_m s) TAIL) = S (length (wr_in s));
  rw_hl : length (m_at (wr_m s) HEAD) = S (length (wr_out s));
  rw_tm : forall t v w, nth_error (m_at (wr_m s) TAIL) t = Some (v, w) -> v = t mod n /\ good n (length (wr_in s)) (length (wr_out s)) (cnt (wr_m s)) w /\ t <= va w TAIL;
  rw_hm : forall t v w, nth_error (m_at (wr_m s) HEAD) t = Some (v, w) -> v = t mod n /\ good n (length (wr_in s)) (length (wr_out s)) (cnt (wr_m s)) w /\ t <= va w HEAD;
  rw_cnt : forall i, cnt (wr_m s) i = cntp n (length (wr_in s) + storing_p (wr_p s)) i + cntp n (length (wr_out s) + storing_c (wr_c s)) i;
  rw_gp : good n (length (wr_in s)) (length (wr_out s)) (cnt (wr_m s)) (m_vw (wr_m s) 0);
  rw_gc : good n (length (wr_in s)) (length (wr_out s)) (cnt (wr_m s)) (m_vw (wr_m s) 1);
  rw_pt : va (m_vw (wr_m s) 0) TAIL = length (wr_in s);
  rw_ch : va (m_vw (wr_m s) 1) HEAD = length (wr_out s);
  rw_pb : length (wr_in s) + 1 <= va (m_vw (wr_m s) 0) HEAD + n;
  rw_cb : length (wr_out s) <= va (m_vw (wr_m s) 1) TAIL;
  rw_o : wr_out s = firstn (length (wr_out s)) (wr_in s);
  rw_b : forall k, length (wr_out s) <= k < length (wr_in s) -> fst (m_na (wr_m s) (k mod n)) = nth k (wr_in s) 0;
  rw_p : match wr_p s with
         | WpIdle => True
         | WpFull _ cur => cur = length (wr_in s) mod n
         | WpWrite _ cur => cur = length (wr_in s) mod n /\ length (wr_in s) + 2 <= va (m_vw (wr_m s) 0) HEAD + n
         | WpStore v cur => cur = length (wr_in s) mod n /\ length (wr_in s) + 2 <= va (m_vw (wr_m s) 0) HEAD + n /\ fst (m_na (wr_m s) cur) = v /\
                            forall i, 2 * cntp n (S (length (wr_in s))) i <= vn (m_vw (wr_m s) 0) i + 1
         end;
  rw_q : match wr_c s with
         | WcIdle => True
         | WcTest cur => cur = length (wr_out s) mod n
         | WcRead cur => cur = length (wr_out s) mod n /\ length (wr_out s) < va (m_vw (wr_m s) 1) TAIL
         | WcStore v cur => cur = length (wr_out s) mod n /\ length (wr_out s) < va (m_vw (wr_m s) 1) TAIL /\ v = nth (length (wr_out s)) (wr_in s) 0 /\
                            forall i, 2 * cntp n (S (length (wr_out s))) i <= vn (m_vw (wr_m s) 1) i
         end }.
Lemma RWI_new n : 0 < n -> RWI n wring_new.
Proof.
  intros Hn. assert (G : good n 0 0 (cnt m_new) v_none) by (constructor; cbn; intros; lia).
  constructor; cbn [wring_new wr_m wr_p wr_c wr_in wr_out wr_miss m_new m_at m_vw m_na length storing_p storing_c cntp Nat.add v_none va vn fst nth firstn]; auto; try lia.
  - intros [|[|t]] v w E; try discriminate E. injection E as <- <-. rewrite Nat.mod_0_l by lia. auto.
  - intros [|[|t]] v w E; try discriminate E. injection E as <- <-. rewrite Nat.mod_0_l by lia. auto.
Qed.

(** A load of thread [u] and what it learns. *)
Lemma load_inv o u x t m v m' : w_load o u x t m = Some (v, m') -> exists w, va (m_vw m u) x <= t /\ nth_error (m_at m x) t = Some (v, w) /\
  m' = set_vw u (v_see x t (if acq o then v_join (m_vw m u) w else m_vw m u)) m.
Proof. unfold w_load. destruct (Nat.ltb_spec t (va (m_vw m u) x)); [discriminate|]. destruct (nth_error (m_at m x) t) as [[v0 w]|]; [|discriminate]. intros E. injection E as <- <-. exists w. auto. Qed.

Ltac rwc := cbn [wr_m wr_p wr_c wr_in wr_out wr_miss set_vw m_at m_vw m_na storing_p storing_c].

Lemma RWI_step n s l s' : 0 < n -> RWI n s -> wring_step n s l = WStep s' -> RWI n s'.
Proof.
  intros Hn I E. pose proof I as [Itl Ihl Itm Ihm Ic Igp Igc Ipt Ich Ipb Icb Io Ib Ip Iq].
  set (m := wr_m s) in *. set (L := length (wr_in s)) in *. set (R := length (wr_out s)) in *.
  assert (N01 : upd (m_vw m) 0 = fun (v : view) x => if Nat.eqb x 0 then v else m_vw m x) by reflexivity.
  destruct l as [v t|t|t|t| |]; cbn [wring_step] in E; fold m in E.
  - destruct (wr_p s) eqn:P; try discriminate. destruct (w_load Relaxed 0 TAIL t m) as [[cur m']|] eqn:W; [|discriminate]. injection E as <-.
    destruct (load_inv _ _ _ _ _ _ _ W) as (w & T1 & T2 & ->). cbn [acq]. assert (T3 : t < S L) by (rewrite <- Itl; apply nth_error_Some; rewrite T2; discriminate). rewrite Ipt in T1. assert (t = L) by lia. subst t.
    destruct (Itm _ _ _ T2) as (-> & _ & _). assert (Sv : forall y, va (v_see TAIL L (m_vw m 0)) y = va (m_vw m 0) y) by (intros y; apply see_va; lia).
    constructor; rwc; rewrite ?upd_same, ?(upd_other (m_vw m) 0 _ 1) by discriminate; rewrite ?Sv; auto. apply good_see; [lia|exact Igp].
  - destruct (wr_p s) as [|v cur|v cur|v cur] eqn:P; try discriminate.
    + destruct (w_load Acquire 0 HEAD t m) as [[h m']|] eqn:W; [|discriminate]. injection E as <-. destruct (load_inv _ _ _ _ _ _ _ W) as (w & T1 & T2 & ->). cbn [acq].
      destruct (Ihm _ _ _ T2) as (-> & Gw & Tw). set (z := v_join (m_vw m 0) w). assert (Gz : good n L R (cnt m) z) by (apply good_join; auto).
      assert (Tz : t <= va z HEAD) by (unfold z; cbn; lia). assert (Sv : forall y, va (v_see HEAD t z) y = va z y) by (intros y; now apply see_va).
      assert (Zt : va z TAIL = L) by (pose proof (g_t _ _ _ _ _ Gw); unfold z; cbn [v_join va]; lia).
      assert (Zh : L + 1 <= va z HEAD + n) by lia.
      assert (Iq' : match wr_c s with WcStore v0 cur0 => cur0 = R mod n /\ R < va (m_vw m 1) TAIL /\ v0 = nth R (wr_in s) 0 /\ (forall i, 2 * cntp n (S R) i <= vn (m_vw m 1) i) | _ => True end) by (destruct (wr_c s); auto).
      assert (Icb' : cnt (set_vw 0 (v_see HEAD t z) m) = cnt m) by reflexivity.
      constructor; rwc; rewrite ?upd_same, ?(upd_other (m_vw m) 0 _ 1) by discriminate; rewrite ?Sv; auto.
      * intros i. destruct (Nat.eqb _ _); cbn [storing_p]; apply Ic.
      * apply good_see; auto.
      * destruct (Nat.eqb_spec ((cur + 1) mod n) (t mod n)) as [Q|Q]; [exact Ip|]. split; [exact Ip|]. fold L. assert (L + 1 <> t + n); [|lia]. intros X. apply Q. rewrite Ip, Nat.add_mod_idemp_l by lia. rewrite X.
        replace (t + n) with (t + 1 * n) by lia. now rewrite Nat.mod_add by lia.
    + destruct Ip as [-> Ip]. destruct (w_access 0 (L mod n) (fun _ => v) m) as [[v0 m']|] eqn:W; [|discriminate]. injection E as <-. unfold w_access in W. destruct (m_na m (L mod n)) as [x k] eqn:Na.
      destruct (Nat.eqb_spec (vn (m_vw m 0) (L mod n)) k) as [Q|Q]; [|discriminate]. injection W as <- <-. set (m' := mkM _ _ _).
      assert (Ck : cnt m (L mod n) = k) by (unfold cnt; now rewrite Na).
      assert (C' : forall i, cnt m' i = cnt m i + (if Nat.eqb (L mod n) i then 1 else 0)).
      { intros i. unfold cnt, m'. cbn [m_na]. unfold upd. rewrite (Nat.eqb_sym i). destruct (Nat.eqb_spec (L mod n) i) as [<-|]; cbn [snd]; [rewrite Na; cbn [snd]; lia|lia]. }
      assert (Cm : forall i, cnt m i <= cnt m' i) by (intros i; rewrite C'; lia).
      pose proof (g_h _ _ _ _ _ Igp) as PH.
      constructor; rwc; fold m'; fold L; fold R; auto.
      * intros t0 v1 w H. destruct (Itm t0 v1 w H) as (A & B & C). split; [exact A|]. split; [|exact C]. eapply good_mono; [| | |exact B]; auto.
      * intros t0 v1 w H. destruct (Ihm t0 v1 w H) as (A & B & C). split; [exact A|]. split; [|exact C]. eapply good_mono; [| | |exact B]; auto.
      * intros i. rewrite C', Ic. cbn [storing_p]. rewrite Nat.add_0_r, Nat.add_1_r. cbn [cntp]. lia.
      * unfold m' at 2. cbn [m_vw]. rewrite upd_same. destruct Igp as [A1 A2 A3 A4 A5]. constructor; cbn [va vn]; auto; intros i; unfold upd; (destruct (Nat.eqb_spec i (L mod n)) as [->|D]); auto.
        -- specialize (A3 (L mod n)). lia.
        -- specialize (A4 (L mod n)). lia.
        -- rewrite C', Nat.eqb_refl. lia.
        -- specialize (A5 i). specialize (Cm i). lia.
      * unfold m' at 2. cbn [m_vw]. rewrite upd_other by discriminate. eapply good_mono; [| | |exact Igc]; auto.
      * intros j Hj. unfold m'. cbn [m_na]. rewrite upd_other; [now apply Ib|]. intros X. apply mod_eq in X; lia.
      * split; [reflexivity|]. unfold m'. cbn [m_vw m_na]. rewrite !upd_same. cbn [va vn fst]. split; [exact Ip|]. split; [reflexivity|]. intros i. cbn [cntp]. unfold upd. rewrite (Nat.eqb_sym i).
        pose proof (g_nt _ _ _ _ _ Igp i) as G. rewrite Ipt in G. destruct (Nat.eqb_spec (L mod n) i) as [<-|D]; [|lia].
        pose proof (g_nh _ _ _ _ _ Igp (L mod n)) as G2. rewrite (cntp_same n L Hn (L - va (m_vw m 0) HEAD)) in G2 by (pose proof (g_t _ _ _ _ _ Igc); lia). lia.
    + destruct Ip as (-> & Ip & Iv & Is). injection E as <-. unfold w_store. cbn [rel].
      assert (Hx : HEAD <> TAIL) by discriminate. set (w := v_see TAIL (length (m_at m TAIL)) (m_vw m 0)).
      assert (Wt : va w TAIL = S L) by (unfold w; cbn [v_see va]; rewrite upd_same, Itl; lia). assert (Wh : va w HEAD = va (m_vw m 0) HEAD) by (unfold w; cbn [v_see va]; now rewrite upd_other by discriminate).
      assert (Gw : good n (S L) R (cnt m) w) by (destruct Igp as [A1 A2 A3 A4 A5]; constructor; rewrite ?Wt, ?Wh; auto).
      assert (MON : forall z, good n L R (cnt m) z -> good n (S L) R (cnt m) z) by (intros z; apply good_mono; auto).
      constructor; rwc; rewrite ?app_length; cbn [length]; fold L; fold R; rewrite ?upd_same, ?(upd_other (m_vw m) 0 _ 1), ?(upd_other (m_at m) TAIL _ HEAD) by discriminate; rewrite ?(Nat.add_1_r L); fold w; try assumption.
      * rewrite app_length, Itl. cbn [length]. lia.
      * intros t0 v1 w1 H. change (cnt (mkM _ _ _)) with (cnt m). destruct (Nat.lt_ge_cases t0 (length (m_at m TAIL))) as [H0|H0].
        -- rewrite nth_error_app1 in H by exact H0. destruct (Itm _ _ _ H) as (A & B & C). auto.
        -- rewrite nth_error_app2 in H by exact H0. destruct (t0 - length (m_at m TAIL)) as [|[|q]] eqn:Q; try discriminate H. injection H as <- <-. assert (t0 = S L) by lia. subst t0. rewrite Nat.add_mod_idemp_l, Nat.add_1_r by lia. rewrite Wt. auto.
      * intros t0 v1 w1 H. destruct (Ihm _ _ _ H) as (A & B & C). split; [exact A|]. split; [now apply MON|exact C].
      * intros i. rewrite Nat.add_0_r. rewrite <- (Nat.add_1_r L). apply Ic.
      * now apply MON.
      * rewrite Wh. lia.
      * rewrite firstn_app. replace (R - length (wr_in s)) with 0 by (fold L; pose proof (g_t _ _ _ _ _ Igc); lia). cbn [firstn]. rewrite app_nil_r. exact Io.
      * intros k Hk. destruct (Nat.eq_dec k L) as [->|K]; [rewrite app_nth2 by (fold L; lia); fold L; rewrite Nat.sub_diag; exact Iv|]. rewrite app_nth1 by (fold L; lia). apply Ib. lia.
      * exact Logic.I.
      * destruct (wr_c s); auto. destruct Iq as (A & B & C & D). repeat split; auto. rewrite app_nth1; [exact C|]. fold L. pose proof (g_t _ _ _ _ _ Igc). lia.
  - destruct (wr_c s) eqn:P; try discriminate. destruct (w_load Relaxed 1 HEAD t m) as [[cur m']|] eqn:W; [|discriminate]. injection E as <-.
    destruct (load_inv _ _ _ _ _ _ _ W) as (w & T1 & T2 & ->). cbn [acq]. assert (T3 : t < S R) by (rewrite <- Ihl; apply nth_error_Some; rewrite T2; discriminate). rewrite Ich in T1. assert (t = R) by lia. subst t.
    destruct (Ihm _ _ _ T2) as (-> & _ & _). assert (Sv : forall y, va (v_see HEAD R (m_vw m 1)) y = va (m_vw m 1) y) by (intros y; apply see_va; lia).
    constructor; rwc; rewrite ?upd_same, ?(upd_other (m_vw m) 1 _ 0) by discriminate; rewrite ?Sv; auto. apply good_see; [lia|exact Igc].
  - destruct (wr_c s) as [|cur|cur|v cur] eqn:P; try discriminate.
    + destruct (w_load Acquire 1 TAIL t m) as [[h m']|] eqn:W; [|discriminate]. injection E as <-. destruct (load_inv _ _ _ _ _ _ _ W) as (w & T1 & T2 & ->). cbn [acq].
      destruct (Itm _ _ _ T2) as (-> & Gw & Tw). set (z := v_join (m_vw m 1) w). assert (Gz : good n L R (cnt m) z) by (apply good_join; auto).
      assert (Tz : t <= va z TAIL) by (unfold z; cbn; lia). assert (Sv : forall y, va (v_see TAIL t z) y = va z y) by (intros y; now apply see_va).
      assert (Zt : va z HEAD = R) by (pose proof (g_h _ _ _ _ _ Gw); unfold z; cbn [v_join va]; lia).
      assert (Zc : R <= va z TAIL) by lia.
      destruct (Nat.eqb_spec cur (t mod n)) as [Q|Q].
      * constructor; rwc; rewrite ?upd_same, ?(upd_other (m_vw m) 1 _ 0) by discriminate; rewrite ?Sv; auto. apply good_see; auto.
      * constructor; rwc; rewrite ?upd_same, ?(upd_other (m_vw m) 1 _ 0) by discriminate; rewrite ?Sv; auto; [apply good_see; auto|]. split; [exact Iq|]. fold R. assert (t <> R); [|lia]. intros ->. now apply Q.
    + destruct Iq as [-> Iq]. destruct (w_access 1 (R mod n) (fun v => v) m) as [[v0 m']|] eqn:W; [|discriminate]. injection E as <-. unfold w_access in W. destruct (m_na m (R mod n)) as [x k] eqn:Na.
      destruct (Nat.eqb_spec (vn (m_vw m 1) (R mod n)) k) as [Q|Q]; [|discriminate]. injection W as <- <-. set (m' := mkM _ _ _).
      assert (Ck : cnt m (R mod n) = k) by (unfold cnt; now rewrite Na).
      assert (C' : forall i, cnt m' i = cnt m i + (if Nat.eqb (R mod n) i then 1 else 0)).
      { intros i. unfold cnt, m'. cbn [m_na]. unfold upd. rewrite (Nat.eqb_sym i). destruct (Nat.eqb_spec (R mod n) i) as [<-|]; cbn [snd]; [rewrite Na; cbn [snd]; lia|lia]. }
      assert (Cm : forall i, cnt m i <= cnt m' i) by (intros i; rewrite C'; lia).
      assert (F' : forall i, fst (m_na m' i) = fst (m_na m i)) by (intros i; unfold m'; cbn [m_na]; unfold upd; destruct (Nat.eqb_spec i (R mod n)) as [->|]; [rewrite Na; reflexivity|reflexivity]).
      pose proof (g_t _ _ _ _ _ Igc) as CT. pose proof (g_h _ _ _ _ _ Igp) as PH.
      assert (K : k = 2 * cntp n R (R mod n) + 1).
      { rewrite <- Ck, Ic. cbn [storing_c]. rewrite Nat.add_0_r. set (d := storing_p (wr_p s)). assert (Hd : L + d <= R + n) by (unfold d; destruct (wr_p s); cbn [storing_p]; lia).
        rewrite (cntp_next n R Hn (L + d - S R) (L + d)) by lia. lia. }
      constructor; rwc; fold m'; fold L; fold R; auto.
      * intros t0 v1 w H. destruct (Itm t0 v1 w H) as (A & B & C). split; [exact A|]. split; [|exact C]. eapply good_mono; [| | |exact B]; auto.
      * intros t0 v1 w H. destruct (Ihm t0 v1 w H) as (A & B & C). split; [exact A|]. split; [|exact C]. eapply good_mono; [| | |exact B]; auto.
      * intros i. rewrite C', Ic. cbn [storing_c]. rewrite (Nat.add_0_r R), (Nat.add_1_r R). cbn [cntp]. lia.
      * unfold m' at 2. cbn [m_vw]. rewrite upd_other by discriminate. eapply good_mono; [| | |exact Igp]; auto.
      * unfold m' at 2. cbn [m_vw]. rewrite upd_same. destruct Igc as [A1 A2 A3 A4 A5]. constructor; cbn [va vn]; auto; intros i; unfold upd; (destruct (Nat.eqb_spec i (R mod n)) as [->|D]); auto.
        -- specialize (A3 (R mod n)). lia.
        -- specialize (A4 (R mod n)). lia.
        -- rewrite C', Nat.eqb_refl. lia.
        -- specialize (A5 i). specialize (Cm i). lia.
      * intros j Hj. rewrite F'. now apply Ib.
      * destruct (wr_p s); auto. destruct Ip as (A & B & C & D). rewrite F'. unfold m'. cbn [m_vw]. rewrite upd_other by discriminate. auto.
      * split; [reflexivity|]. unfold m'. cbn [m_vw]. rewrite !upd_same. cbn [va vn]. split; [exact Iq|]. split; [rewrite <- (Ib R) by lia; rewrite Na; reflexivity|]. intros i. cbn [cntp]. unfold upd. rewrite (Nat.eqb_sym i).
        pose proof (g_nh _ _ _ _ _ Igc i) as G. rewrite Ich in G. destruct (Nat.eqb_spec (R mod n) i) as [<-|D]; [|lia]. lia.
    + destruct Iq as (-> & Iq & Iv & Is). injection E as <-. unfold w_store. cbn [rel]. pose proof (g_t _ _ _ _ _ Igc) as CT.
      set (w := v_see HEAD (length (m_at m HEAD)) (m_vw m 1)).
      assert (Wt : va w HEAD = S R) by (unfold w; cbn [v_see va]; rewrite upd_same, Ihl; lia). assert (Wh : va w TAIL = va (m_vw m 1) TAIL) by (unfold w; cbn [v_see va]; now rewrite upd_other by discriminate).
      assert (Gw : good n L (S R) (cnt m) w) by (destruct Igc as [A1 A2 A3 A4 A5]; constructor; rewrite ?Wt, ?Wh; auto).
      assert (MON : forall z, good n L R (cnt m) z -> good n L (S R) (cnt m) z) by (intros z; apply good_mono; auto).
      constructor; rwc; rewrite ?app_length; cbn [length]; fold L; fold R; rewrite ?upd_same, ?(upd_other (m_vw m) 1 _ 0), ?(upd_other (m_at m) HEAD _ TAIL) by discriminate; rewrite ?(Nat.add_1_r R); fold w; try assumption.
      * rewrite app_length, Ihl. cbn [length]. lia.
      * intros t0 v1 w1 H. destruct (Itm _ _ _ H) as (A & B & C). split; [exact A|]. split; [now apply MON|exact C].
      * intros t0 v1 w1 H. change (cnt (mkM _ _ _)) with (cnt m). destruct (Nat.lt_ge_cases t0 (length (m_at m HEAD))) as [H0|H0].
        -- rewrite nth_error_app1 in H by exact H0. destruct (Ihm _ _ _ H) as (A & B & C). auto.
        -- rewrite nth_error_app2 in H by exact H0. destruct (t0 - length (m_at m HEAD)) as [|[|q]] eqn:Q; try discriminate H. injection H as <- <-. assert (t0 = S R) by lia. subst t0. rewrite Nat.add_mod_idemp_l, Nat.add_1_r by lia. rewrite Wt. auto.
      * intros i. rewrite Nat.add_0_r. rewrite <- (Nat.add_1_r R). apply Ic.
      * now apply MON.
      * rewrite Iv. rewrite Io at 1. fold R. assert (RL : R < length (wr_in s)) by (fold L; lia). clear - RL. revert RL. generalize R. generalize (wr_in s). induction l as [|x r IH]; intros [|k] H; cbn in *; try lia; [easy|]. f_equal. apply IH. lia.
      * intros k Hk. apply Ib. lia.
      * exact Logic.I.
  - injection E as <-. unfold w_tell. pose proof (g_h _ _ _ _ _ Igp) as PH.
    constructor; rwc; rewrite ?upd_same, ?(upd_other (m_vw m) 1 _ 0) by discriminate; auto; fold L; fold R.
    + now apply good_join.
    + cbn [v_join va]. lia.
    + cbn [v_join va]. lia.
    + destruct (wr_c s); cbn [v_join va]; auto; [destruct Iq; split; [assumption|lia]|]. destruct Iq as (A & B & C & D). repeat split; auto; [lia|]. intros i. cbn [v_join vn]. specialize (D i). lia.
  - injection E as <-. unfold w_tell. pose proof (g_t _ _ _ _ _ Igc) as CT.
    constructor; rwc; rewrite ?upd_same, ?(upd_other (m_vw m) 0 _ 1) by discriminate; auto; fold L; fold R.
    + now apply good_join.
    + cbn [v_join va]. lia.
    + cbn [v_join va]. lia.
    + destruct (wr_p s); cbn [v_join va]; auto; [destruct Ip; split; [assumption|lia]|]. destruct Ip as (A & B & C & D). repeat split; auto; [lia|]. intros i. cbn [v_join vn]. specialize (D i). lia.
Qed.
Lemma RWI_safe n s l : 0 < n -> RWI n s -> wring_step n s l <> WRace.
Proof.
  intros Hn [Itl Ihl Itm Ihm Ic Igp Igc Ipt Ich Ipb Icb Io Ib Ip Iq] E. set (m := wr_m s) in *. set (L := length (wr_in s)) in *. set (R := length (wr_out s)) in *.
  destruct l as [v t|t|t|t| |]; cbn [wring_step] in E; fold m in E; try discriminate.
  - destruct (wr_p s); try discriminate. destruct (w_load _ _ _ _ _) as [[]|]; discriminate.
  - destruct (wr_p s) as [|v cur|v cur|v cur] eqn:P; try discriminate; [destruct (w_load _ _ _ _ _) as [[]|]; discriminate|].
    destruct Ip as [-> Ip]. unfold w_access in E. destruct (m_na m (L mod n)) as [x k] eqn:Na. assert (Ck : cnt m (L mod n) = k) by (unfold cnt; now rewrite Na).
    destruct (Nat.eqb_spec (vn (m_vw m 0) (L mod n)) k) as [Q|Q]; [discriminate|]. apply Q. pose proof (g_h _ _ _ _ _ Igp) as PH. pose proof (g_nh _ _ _ _ _ Igp (L mod n)) as G. pose proof (g_c _ _ _ _ _ Igp (L mod n)) as GC.
    pose proof (g_t _ _ _ _ _ Igc) as CT. rewrite (cntp_same n L Hn (L - va (m_vw m 0) HEAD)) in G by lia. rewrite Ic in GC. rewrite <- Ck, Ic. cbn [storing_p] in *. rewrite (Nat.add_0_r L) in *.
    set (d := storing_c (wr_c s)) in *. assert (Hd : R + d <= L) by (unfold d; destruct (wr_c s); cbn [storing_c]; [lia|lia|lia|destruct Iq; lia]). pose proof (cntp_same n L Hn (L - (R + d)) (R + d) ltac:(lia) ltac:(lia)). lia.
  - destruct (wr_c s); try discriminate. destruct (w_load _ _ _ _ _) as [[]|]; discriminate.
  - destruct (wr_c s) as [|cur|cur|v cur] eqn:P; try discriminate; [destruct (w_load _ _ _ _ _) as [[]|]; discriminate|].
    destruct Iq as [-> Iq]. unfold w_access in E. destruct (m_na m (R mod n)) as [x k] eqn:Na. assert (Ck : cnt m (R mod n) = k) by (unfold cnt; now rewrite Na).
    destruct (Nat.eqb_spec (vn (m_vw m 1) (R mod n)) k) as [Q|Q]; [discriminate|]. apply Q. pose proof (g_t _ _ _ _ _ Igc) as CT. pose proof (g_nt _ _ _ _ _ Igc (R mod n)) as G. pose proof (g_c _ _ _ _ _ Igc (R mod n)) as GC.
    pose proof (g_h _ _ _ _ _ Igp) as PH. rewrite (cntp_next n R Hn (va (m_vw m 1) TAIL - S R)) in G by lia. rewrite Ic in GC. rewrite <- Ck, Ic. cbn [storing_c] in *. rewrite (Nat.add_0_r R) in *.
    set (d := storing_p (wr_p s)) in *. assert (Hd : L + d <= R + n) by (unfold d; destruct (wr_p s); cbn [storing_p]; lia). pose proof (cntp_next n R Hn (L + d - S R) (L + d) ltac:(lia) ltac:(lia)). lia.
Qed.
Lemma RWI_run n : 0 < n -> forall ls s, RWI n s -> wring_run n s ls <> WRace /\ (forall s', wring_run n s ls = WStep s' -> RWI n s').
Proof.
  intros Hn. induction ls as [|l r IH]; intros s I; cbn [wring_run]; [split; [discriminate|intros s' E; now injection E as <-]|].
  destruct (wring_step n s l) as [| |s1] eqn:E; [split; discriminate|now apply RWI_safe in E|]. apply IH. eapply RWI_step; eassumption.
Qed.
