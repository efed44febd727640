(** No starvation when every queue has more takers than there are waiting groups. *)
From Verif Require Export NestProofs.
From Coq Require Import Lia.
Local Open Scope nat_scope.
Local Open Scope list_scope.

Lemma blocked_top p W R s t : blocked p W R s -> n_prog s t = [] \/ exists h r, n_prog s t = Wait h :: r /\ ~ forall c, In c (e_kids p h) -> In c (n_done s).
Proof.
  intros B. specialize (B (LGo t None (fun _ => 0))). cbn [nstep] in B. destruct (n_prog s t) as [|[e|g|e] r]; [left; reflexivity| | |].
  - exfalso. destruct (e_kind p e); discriminate B.
  - right. exists g, r. split; [reflexivity|]. intros H. apply all_memb in H. rewrite H in B. discriminate B.
  - exfalso. destruct (_ || _); discriminate B.
Qed.
Lemma blocked_queue p W R s : plan_ok p -> ninv p W s -> blocked p W R s -> (forall q, length (waiters p) < length (takers W R q)) -> n_q s = [].
Proof.
  intros K V B L. destruct (n_q s) as [|[q e] r] eqn:Q; [reflexivity|exfalso].
  assert (X : (exists w, In w (takers W R q) /\ n_prog s w = []) \/ forall w, In w (takers W R q) -> n_prog s w <> []).
  { induction (takers W R q) as [|w l IH]; [right; intros w []|]. destruct (n_prog s w) eqn:P; [left; exists w; split; [left; reflexivity|exact P]|]. destruct IH as [(w' & I & E)|H]; [left; exists w'; split; [right; exact I|exact E]|]. right. intros w' [<-|I]; [congruence|exact (H w' I)]. }
  destruct X as [(w & I & P)|H].
  - specialize (B (LTake w q (fun _ => true) false)). cbn [nstep] in B. rewrite P in B. unfold waiting_in in B. rewrite Q in B. cbn [filter fst snd] in B. rewrite Nat.eqb_refl in B. cbn [andb map] in B.
    unfold takers in I. apply filter_In in I. destruct I as [I RW]. apply in_seq in I. rewrite RW in B. rewrite (proj2 (Nat.leb_le 1 w)), (proj2 (Nat.leb_le w W)) in B by lia. discriminate B.
  - set (f := fun w => match n_prog s w with Wait h :: _ => h | _ => 0 end).
    assert (F : forall w, In w (takers W R q) -> In (Wait (f w)) (n_prog s w)).
    { intros w I. destruct (blocked_top p W R s w B) as [E|(h & r' & E & _)]; [destruct (H w I E)|]. unfold f. rewrite E. left. reflexivity. }
    assert (ND : NoDup (map f (takers W R q))).
    { assert (N0 : NoDup (takers W R q)) by (apply nodup_filter, seq_NoDup). revert F N0. generalize (takers W R q). intros l F N0. induction N0 as [|w l X N0 IH]; cbn [map]; [constructor|]. constructor; [|apply IH; intros u I; apply F; right; exact I].
      intros I. apply in_map_iff in I. destruct I as (u & E & I). assert (u = w); [|subst u; contradiction]. apply (v_one p W s V u w (Wait (f w))); [rewrite <- E|]; apply F; [right; exact I|left; reflexivity]. }
    assert (IN : incl (map f (takers W R q)) (waiters p)).
    { intros h I. apply in_map_iff in I. destruct I as (w & <- & I). pose proof (F w I) as FW. destruct (v_wait p W s V (f w)) as (BG & KP & _); [exists w; exact FW|].
      unfold waiters. apply filter_In. split; [apply (v_all p W s V); right; right; exact BG|]. apply andb_true_iff. split; [apply is_par_spec, KP|]. apply negb_true_iff, Nat.eqb_neq. intros E.
      pose proof (v_main p W s V w _ FW E) as Z. unfold takers in I. apply filter_In in I. destruct I as [I _]. apply in_seq in I. lia. }
    pose proof (NoDup_incl_length ND IN) as LE. rewrite map_length in LE. specialize (L q). lia.
Qed.
Lemma ready_child p dn h : plan_ok p -> (exists c, In c (e_kids p h) /\ ~ In c dn) -> exists c, In c (e_kids p h) /\ ~ In c dn /\ forall d, In d (e_dep p c) -> In d dn.
Proof.
  intros K [c0 [I0 N0]]. destruct (po_dag p K) as [rank RK]. remember (rank c0) as n eqn:E. revert c0 E I0 N0. induction n as [n IH] using lt_wf_ind. intros c -> I N.
  destruct (forallb (fun d => memb d dn) (e_dep p c)) eqn:F; [exists c; split; [exact I|split; [exact N|apply all_memb, F]]|].
  assert (X : exists d, In d (e_dep p c) /\ ~ In d dn).
  { clear -F. induction (e_dep p c) as [|d l IH]; [discriminate F|]. cbn [forallb] in F. destruct (memb d dn) eqn:M; [|exists d; split; [left; reflexivity|apply memb_false, M]]. destruct (IH F) as (d' & A & B). exists d'. split; [right; exact A|exact B]. }
  destruct X as (d & D & ND). destruct (po_kid p K h c I) as (PE & _ & AL). apply (IH (rank d) (RK c d D) d eq_refl); [|exact ND]. rewrite <- PE. apply (po_dep p K c d D AL).
Qed.
Lemma not_all (dn l : list nat) : ~ (forall c, In c l -> In c dn) -> exists c, In c l /\ ~ In c dn.
Proof.
  induction l as [|c l IH]; intros H; [destruct H; intros c []|]. destruct (in_dec Nat.eq_dec c dn) as [I|N]; [|exists c; split; [left; reflexivity|exact N]].
  destruct IH as (c' & A & B); [intros G; apply H; intros c' [<-|J]; [exact I|exact (G c' J)]|]. exists c'. split; [right; exact A|exact B].
Qed.
Lemma blocked_next p W R s t h r : plan_ok p -> ninv p W s -> blocked p W R s -> n_q s = [] -> n_prog s t = Wait h :: r -> exists t' h' r', n_prog s t' = Wait h' :: r' /\ before (n_begun s) h h'.
Proof.
  intros K V B Q P. destruct (v_wait p W s V h) as (BH & KP & _); [exists t; rewrite P; left; reflexivity|].
  destruct (blocked_top p W R s t B) as [E|(h0 & r0 & E & N)]; [congruence|]. rewrite P in E. injection E as <- <-.
  destruct (ready_child p (n_done s) h K (not_all _ _ N)) as (c & C & NC & D).
  pose proof (v_par p W s V h c KP BH C D) as L. destruct (po_kid p K h c C) as (PE & NR & _).
  assert (X : exists o, has s o /\ about o = Some c).
  { destruct L as [L|[L|L]]; [unfold queued in L; rewrite Q in L; destruct L|exists (Run c); auto|]. exists (End c). split; [|reflexivity]. apply (v_end p W s V). auto. }
  destruct X as (o & [t' I] & A). destruct (blocked_top p W R s t' B) as [E|(h' & r' & E & _)]; [rewrite E in I; destruct I|].
  exists t', h', r'. split; [exact E|]. rewrite E in I. destruct I as [<-|I]; [discriminate A|]. rewrite <- PE. apply (v_waits p W s V t' [] h' r' E o c I A NR). rewrite PE. exact KP.
Qed.
Lemma before_suffix {X} (A : list X) h C h' : NoDup (A ++ h :: C) -> before (A ++ h :: C) h h' -> In h' C.
Proof.
  intros N (l1 & l2 & l3 & E). assert (L : forall (A1 C1 A2 C2 : list X), NoDup (A1 ++ h :: C1) -> A1 ++ h :: C1 = A2 ++ h :: C2 -> C1 = C2).
  { induction A1 as [|x A1 IH]; intros C1 A2 C2 N1 E1; destruct A2 as [|y A2]; cbn [app] in *.
    - injection E1 as ->. reflexivity.
    - exfalso. injection E1 as <- ->. inversion N1 as [|? ? Z _]. apply Z. apply in_or_app. right. left. reflexivity.
    - exfalso. injection E1 as -> <-. inversion N1 as [|? ? Z _]. apply Z. apply in_or_app. right. left. reflexivity.
    - injection E1 as -> E1. inversion N1; subst. eapply IH; eassumption. }
  rewrite (L _ _ _ _ N E). apply in_or_app. right. left. reflexivity.
Qed.
Lemma blocked_nowait p W R s : plan_ok p -> ninv p W s -> blocked p W R s -> n_q s = [] -> forall t, n_prog s t = [].
Proof.
  intros K V B Q.
  assert (X : forall n A h C t r, n_begun s = A ++ h :: C -> length C <= n -> n_prog s t = Wait h :: r -> False).
  { induction n as [|n IH]; intros A h C t r E L P.
    all: destruct (blocked_next p W R s t h r K V B Q P) as (t' & h' & r' & P' & BF).
    all: assert (S : exists C1 C2, C = C1 ++ h' :: C2) by (apply in_split; apply (before_suffix A h C h'); [rewrite <- E; apply (v_b p W s V)|rewrite <- E; exact BF]).
    all: destruct S as (C1 & C2 & ->).
    - rewrite app_length in L. cbn [length] in L. lia.
    - apply (IH (A ++ h :: C1) h' C2 t' r'); [rewrite E, <- app_assoc; reflexivity| |exact P']. rewrite app_length in L. cbn [length] in L. lia. }
  intros t. destruct (blocked_top p W R s t B) as [E|(h & r & E & _)]; [exact E|exfalso].
  destruct (v_wait p W s V h) as (BH & _); [exists t; rewrite E; left; reflexivity|]. apply in_split in BH. destruct BH as (A & C & BE). exact (X (length C) A h C t r BE (le_n _) E).
Qed.
Theorem blocked_complete p W R s : plan_ok p -> ninv p W s -> blocked p W R s -> (forall q, length (waiters p) < length (takers W R q)) -> complete p s.
Proof.
  intros K V B L. pose proof (blocked_queue p W R s K V B L) as Q. pose proof (blocked_nowait p W R s K V B Q) as P.
  assert (NH : forall o, ~ has s o) by (intros o [t I]; rewrite P in I; destruct I).
  assert (BD : forall e, In e (n_begun s) -> In e (n_done s)).
  { intros e I. destruct (in_dec Nat.eq_dec e (n_done s)) as [D|N]; [exact D|]. destruct (NH (End e)). apply (v_end p W s V). auto. }
  assert (AD : forall e, In e (e_all p) -> In e (n_done s)).
  { destruct (po_tree p K) as [depth DP]. intros e. remember (depth e) as n eqn:E. revert e E. induction n as [n IH] using lt_wf_ind. intros e -> I.
    destruct (Nat.eq_dec e (e_root p)) as [->|N]; [apply BD; destruct (v_root p W s V) as [H|H]; [destruct (NH _ H)|exact H]|].
    destruct (po_par p K e I N) as [A C]. apply (v_kids p W s V (e_par p e) e); [|exact A]. apply (IH (depth (e_par p e)) (DP e I N) _ eq_refl C). }
  assert (BA : forall e, In e (n_begun s) -> In e (e_all p)) by (intros e I; apply (v_all p W s V); right; right; exact I).
  split; [exact P|]. split; [exact Q|]. split; [apply (v_b p W s V)|]. split; [apply (v_d p W s V)|]. split; intros e; split; [exact (BA e)|intros I; apply (v_done p W s V), AD, I|intros I; apply BA, (v_done p W s V), I|exact (AD e)].
Qed.

(** Whoever is not blocked can go on without executing a freed element itself. *)
Definition cand (W : nat) (s : nst) : list nlabel :=
  map (fun t => LGo t None (fun _ => 0)) (seq 0 (S W)) ++ flat_map (fun x => map (fun w => LTake w (fst x) (fun _ => true) false) (seq 1 W)) (n_q s).
Lemma cand_blocked p W R s : ninv p W s -> (forall lb, In lb (cand W s) -> nstep p W R s lb = None) -> blocked p W R s.
Proof.
  intros V H lb. destruct lb as [w q f back|t own pl].
  - cbn [nstep]. destruct (n_prog s w) eqn:P; [|reflexivity]. destruct (waiting_in s q f) as [|x r] eqn:WI; [reflexivity|]. destruct (Nat.leb 1 w && Nat.leb w W && R w q) eqn:G; [exfalso|reflexivity].
    assert (I : In x (waiting_in s q f)) by (rewrite WI; left; reflexivity). unfold waiting_in in I. apply in_map_iff in I. destruct I as ([q' e] & E & I). apply filter_In in I. destruct I as [I J]. cbn [fst snd] in *. subst e. apply andb_true_iff in J. destruct J as [J _]. apply Nat.eqb_eq in J. subst q'.
    specialize (H (LTake w q (fun _ => true) false)). cbn [nstep] in H. rewrite P, G in H.
    assert (N : waiting_in s q (fun _ => true) <> []).
    { intros N. assert (X : In x (waiting_in s q (fun _ => true))); [|rewrite N in X; destruct X]. unfold waiting_in. apply in_map_iff. exists (q, x). split; [reflexivity|]. apply filter_In. split; [exact I|]. cbn [fst snd]. rewrite Nat.eqb_refl. reflexivity. }
    destruct (waiting_in s q (fun _ => true)) as [|y l]; [contradiction|]. assert (X : Some (mkN (upd (n_prog s) w (map Run (y :: l))) (filter (fun x0 => negb (Nat.eqb (fst x0) q && true)) (n_q s)) (n_begun s) (n_done s) (n_over s) (n_taken s ++ y :: l)) = None); [|discriminate X].
    apply H. unfold cand. apply in_or_app. right. apply in_flat_map. exists (q, x). split; [exact I|]. cbn [fst]. apply in_map_iff. exists w. split; [reflexivity|]. apply andb_true_iff in G. destruct G as [G _]. apply andb_true_iff in G. destruct G as [G1 G2]. apply Nat.leb_le in G1, G2. apply in_seq. lia.
  - destruct (Nat.leb_spec t W) as [L|L]; [|cbn [nstep]; rewrite (v_idle p W s V t L); reflexivity].
    assert (X : nstep p W R s (LGo t None (fun _ => 0)) = None) by (apply H; unfold cand; apply in_or_app; left; apply in_map_iff; exists t; split; [reflexivity|]; apply in_seq; lia).
    cbn [nstep own_ok] in *. destruct (n_prog s t) as [|[e|g|e] r]; [reflexivity| | |].
    + destruct (e_kind p e); discriminate X.
    + exact X.
    + destruct (_ || _); discriminate X.
Qed.
Lemma go_or_blocked p W R s : ninv p W s -> blocked p W R s \/ exists lb s', nstep p W R s lb = Some s'.
Proof.
  intros V. assert (X : (forall lb, In lb (cand W s) -> nstep p W R s lb = None) \/ exists lb s', nstep p W R s lb = Some s').
  { induction (cand W s) as [|x l IH]; [left; intros lb []|]. destruct (nstep p W R s x) as [s'|] eqn:E; [right; exists x, s'; exact E|]. destruct IH as [IH|IH]; [left; intros lb [<-|I]; [exact E|exact (IH lb I)]|right; exact IH]. }
  destruct X as [X|X]; [left; exact (cand_blocked p W R s V X)|right; exact X].
Qed.
Lemma nrun_app p W R s l1 l2 : nrun p W R s (l1 ++ l2) = match nrun p W R s l1 with Some s1 => nrun p W R s1 l2 | None => None end.
Proof. revert s. induction l1 as [|x l IH]; intros s; cbn [app nrun]; [reflexivity|]. destruct (nstep p W R s x); [apply IH|reflexivity]. Qed.
Lemma reaches_end p W R s : plan_ok p -> ninv p W s -> exists ls s', nrun p W R s ls = Some s' /\ blocked p W R s'.
Proof.
  intros K. remember (4 * length (e_all p) - size s) as n eqn:E. revert s E. induction n as [n IH] using lt_wf_ind. intros s E V.
  destruct (go_or_blocked p W R s V) as [B|(lb & s1 & S)]; [exists [], s; split; [reflexivity|exact B]|].
  destruct (nstep_inv _ _ _ _ _ _ K V S) as [V1 L]. pose proof (size_bound p W s1 V1) as SB. destruct (IH (4 * length (e_all p) - size s1)) with (s := s1) as (ls & s' & X & Y); [lia|reflexivity|exact V1|].
  exists (lb :: ls), s'. split; [cbn [nrun]; rewrite S; exact X|exact Y].
Qed.

(** A pipeline of k parallel regions and one node on k threads. *)
Definition star_par (e : nat) : nat := if Nat.eqb (e mod 3) 0 then 0 else 3 * (e / 3).
Definition star_kids (k g : nat) : list nat :=
  if Nat.eqb g 0 then map (fun i => 3 * i) (seq 1 k) ++ [1] else if Nat.eqb (g mod 3) 0 && Nat.leb (g / 3) k then [g + 1; g + 2] else [].
Definition star (k : nat) : plan :=
  mkPlan (0 :: map (fun i => 3 * i) (seq 1 k) ++ [1] ++ flat_map (fun i => [3 * i + 1; 3 * i + 2]) (seq 1 k)) 0 (fun e => if Nat.eqb (e mod 3) 0 then KPar else KNode) (star_kids k) star_par (fun _ => []).
Lemma mod3 i r : r < 3 -> (3 * i + r) mod 3 = r.
Proof. intros L. rewrite Nat.add_comm, Nat.mul_comm, Nat.mod_add by lia. apply Nat.mod_small, L. Qed.
Lemma div3 i r : r < 3 -> (3 * i + r) / 3 = i.
Proof. intros L. rewrite Nat.mul_comm, Nat.div_add_l by lia. rewrite (Nat.div_small r 3 L). lia. Qed.
Lemma in_triples k e : In e (map (fun i => 3 * i) (seq 1 k)) <-> exists i, 1 <= i <= k /\ e = 3 * i.
Proof. rewrite in_map_iff. split; [intros (i & <- & I); apply in_seq in I; exists i; lia|intros (i & I & ->); exists i; split; [reflexivity|apply in_seq; lia]]. Qed.
Lemma in_leaves k e : In e (flat_map (fun i => [3 * i + 1; 3 * i + 2]) (seq 1 k)) <-> exists i r, 1 <= i <= k /\ (r = 1 \/ r = 2) /\ e = 3 * i + r.
Proof.
  rewrite in_flat_map. split.
  - intros (i & I & [<-|[<-|[]]]); apply in_seq in I; exists i; [exists 1|exists 2]; lia.
  - intros (i & r & I & [->| ->] & ->); (exists i; split; [apply in_seq; lia|cbn; lia]).
Qed.
Lemma in_star k e : In e (e_all (star k)) <-> e = 0 \/ (exists i, 1 <= i <= k /\ e = 3 * i) \/ e = 1 \/ exists i r, 1 <= i <= k /\ (r = 1 \/ r = 2) /\ e = 3 * i + r.
Proof.
  cbn [star e_all]. cbn [In]. rewrite in_app_iff, in_triples. cbn [app In]. rewrite in_leaves. intuition.
Qed.
Lemma leaves_nodup k b : NoDup (flat_map (fun i => [3 * i + 1; 3 * i + 2]) (seq b k)).
Proof.
  revert b. induction k as [|k IH]; intros b; cbn [seq flat_map]; [constructor|]. cbn [app].
  assert (NI : forall e, In e (flat_map (fun i => [3 * i + 1; 3 * i + 2]) (seq (S b) k)) -> 3 * b + 2 < e) by (intros e I; apply in_flat_map in I; destruct I as (i & I & [<-|[<-|[]]]); apply in_seq in I; lia).
  constructor; [intros [I|I]; [lia|apply NI in I; lia]|]. constructor; [intros I; apply NI in I; lia|]. apply IH.
Qed.
Lemma star_ok k : plan_ok (star k).
Proof.
  split.
  - cbn [star e_all]. constructor.
    + intros I. apply in_app_or in I. destruct I as [I|[I|I]]; [apply in_triples in I; destruct I as (i & ? & ?); lia|discriminate I|apply in_leaves in I; destruct I as (i & r & ? & ? & ?); lia].
    + apply nodup_app_intro.
      * apply FinFun.Injective_map_NoDup; [intros a b E; lia|apply seq_NoDup].
      * constructor; [intros I; apply in_leaves in I; destruct I as (i & r & ? & ? & ?); lia|].
        apply leaves_nodup.
      * intros e I J. apply in_triples in I. destruct I as (i & ? & ?). destruct J as [J|J]; [lia|]. apply in_leaves in J. destruct J as (i' & r & ? & ? & ?). lia.
  - left. reflexivity.
  - intros g c I. rewrite in_star. cbn [star e_kids e_par e_root] in *. unfold star_kids in I. destruct (Nat.eqb_spec g 0) as [G|G].
    + subst g. apply in_app_or in I. destruct I as [I|[<-|[]]]; [|split; [reflexivity|split; [lia|auto]]].
      apply in_triples in I. destruct I as (i & L & ->). split; [|split; [lia|right; left; exists i; auto]]. unfold star_par. replace (3 * i) with (3 * i + 0) by lia. rewrite mod3 by lia. reflexivity.
    + destruct (Nat.eqb_spec (g mod 3) 0) as [M|M]; cbn [andb] in I; [|destruct I]. destruct (Nat.leb_spec (g / 3) k) as [L|L]; [|destruct I].
      pose proof (Nat.div_mod g 3) as DM. assert (L1 : 1 <= g / 3) by lia. set (i := g / 3) in *. assert (GE : g = 3 * i) by lia.
      assert (X : exists r, (r = 1 \/ r = 2) /\ c = 3 * i + r) by (destruct I as [<-|[<-|[]]]; [exists 1|exists 2]; lia). destruct X as (r & R & ->).
      split; [|split; [lia|right; right; right; exists i, r; auto]]. unfold star_par. rewrite mod3, div3 by lia. destruct (Nat.eqb_spec r 0); lia.
  - intros c I N. cbn [star e_root] in N. rewrite in_star. rewrite in_star in I. cbn [star e_kids e_par]. unfold star_par, star_kids. destruct I as [I|[(i & L & ->)|[->|(i & r & L & R & ->)]]]; [contradiction| | |].
    + replace (3 * i) with (3 * i + 0) by lia. rewrite mod3 by lia. cbn [Nat.eqb]. split; [apply in_or_app; left; apply in_triples; exists i; lia|left; reflexivity].
    + cbn. split; [apply in_or_app; right; left; reflexivity|left; reflexivity].
    + rewrite mod3, div3 by lia. destruct (Nat.eqb_spec r 0) as [Z|_]; [lia|]. destruct (Nat.eqb_spec (3 * i) 0) as [Z|_]; [lia|]. pose proof (mod3 i 0) as M0. pose proof (div3 i 0) as D0. rewrite Nat.add_0_r in M0, D0. rewrite M0, D0 by lia. cbn [Nat.eqb andb]. rewrite (proj2 (Nat.leb_le i k)) by lia.
      split; [cbn [In]; lia|right; left; exists i; auto].
  - intros g. cbn [star e_kids]. unfold star_kids. destruct (Nat.eqb g 0).
    + apply nodup_snoc; [apply FinFun.Injective_map_NoDup; [intros a b E; lia|apply seq_NoDup]|]. intros I. apply in_triples in I. destruct I as (i & ? & ?). lia.
    + destruct (_ && _); [|constructor]. constructor; [cbn [In]; lia|]. constructor; [intros []|constructor].
  - intros e. cbn [star e_kind e_kids]. unfold star_kids. destruct (Nat.eqb_spec (e mod 3) 0) as [M|M]; [discriminate|]. intros _. destruct (Nat.eqb_spec e 0) as [->|_]; [destruct M; reflexivity|reflexivity].
  - exists (fun e => if Nat.eqb e 0 then 0 else if Nat.eqb (e mod 3) 0 then 1 else 2). intros c I N. cbn [star e_root e_par] in *. unfold star_par. destruct (Nat.eqb_spec c 0) as [Z|_]; [contradiction|]. destruct (Nat.eqb_spec (c mod 3) 0) as [M|M]; [cbn; lia|].
    destruct (Nat.eqb (3 * (c / 3)) 0); [lia|]. replace (3 * (c / 3)) with (3 * (c / 3) + 0) by lia. rewrite mod3 by lia. cbn. lia.
  - intros c d [].
  - exists (fun _ => 0). intros c d [].
Qed.
Lemma filter_none {A} (f : A -> bool) l : (forall x, In x l -> f x = false) -> filter f l = [].
Proof. induction l as [|x l IH]; intros H; cbn [filter]; [reflexivity|]. rewrite (H x) by (left; reflexivity). apply IH. intros y I. apply H. right. exact I. Qed.
Lemma filter_all {A} (f : A -> bool) l : (forall x, In x l -> f x = true) -> filter f l = l.
Proof. induction l as [|x l IH]; intros H; cbn [filter]; [reflexivity|]. rewrite (H x) by (left; reflexivity). f_equal. apply IH. intros y I. apply H. right. exact I. Qed.
Lemma triple_mod i : (3 * i) mod 3 = 0.
Proof. pose proof (mod3 i 0) as M. rewrite Nat.add_0_r in M. apply M. lia. Qed.
Lemma triple_div i : (3 * i) / 3 = i.
Proof. pose proof (div3 i 0) as M. rewrite Nat.add_0_r in M. apply M. lia. Qed.
Lemma star_waiters k : length (waiters (star k)) = k.
Proof.
  unfold waiters. set (f := fun g => _). assert (E : filter f (e_all (star k)) = map (fun i => 3 * i) (seq 1 k)); [|rewrite E, map_length, seq_length; reflexivity].
  cbn [star e_all]. cbn [filter]. replace (f 0) with false by reflexivity. rewrite filter_app. rewrite filter_all.
  - rewrite filter_none; [apply app_nil_r|]. intros e [<-|I]; [reflexivity|]. apply in_leaves in I. destruct I as (i & r & _ & R & ->). unfold f, is_par. cbn [star e_kind]. rewrite mod3 by lia. destruct (Nat.eqb_spec r 0); [lia|reflexivity].
  - intros e I. apply in_triples in I. destruct I as (i & L & ->). unfold f, is_par. cbn [star e_kind e_root]. rewrite triple_mod. cbn [Nat.eqb]. destruct (Nat.eqb_spec (3 * i) 0); [lia|reflexivity].
Qed.

(** Worker after worker takes one region from the front of queue [q0] and waits for its two nodes, which are put into the same queue. *)
Fixpoint starve (q0 j : nat) (ws : list nat) : list nlabel :=
  match ws with [] => [] | w :: r => LTake w q0 (fun e => Nat.eqb e (3 * j)) false :: LGo w None (fun _ => q0) :: starve q0 (S j) r end.
Lemma starve_run k W R q0 ws2 : forall ws1 j s rest, j + length ws2 = S k -> 1 <= j -> NoDup (ws1 ++ ws2) -> (forall w, In w (ws1 ++ ws2) <-> In w (takers W R q0)) ->
  n_done s = [] -> n_q s = map (fun e => (q0, e)) (map (fun i => 3 * i) (seq j (length ws2)) ++ rest) -> (forall e, In e rest -> e mod 3 <> 0) -> rest <> [] ->
  n_prog s 0 = [Wait 0; End 0] -> (forall w, In w ws1 -> exists i, 1 <= i <= k /\ n_prog s w = [Wait (3 * i); End (3 * i)]) -> (forall w, ~ In w ws1 -> w <> 0 -> n_prog s w = []) ->
  exists s', nrun (star k) W R s (starve q0 j ws2) = Some s' /\ n_done s' = [] /\ (forall x, In x (n_q s') -> fst x = q0) /\ n_prog s' 0 = [Wait 0; End 0] /\
    (forall w, In w (takers W R q0) -> exists i, 1 <= i <= k /\ n_prog s' w = [Wait (3 * i); End (3 * i)]) /\ (forall w, ~ In w (takers W R q0) -> w <> 0 -> n_prog s' w = []) /\ n_q s' <> [].
Proof.
  induction ws2 as [|w ws2 IH]; intros ws1 j s rest J J1 ND TK D Q RM RN P0 P1 P2.
  - exists s. cbn [starve nrun]. rewrite app_nil_r in TK. split; [reflexivity|]. split; [exact D|]. split; [intros x I; rewrite Q in I; apply in_map_iff in I; destruct I as (e & <- & _); reflexivity|]. split; [exact P0|].
    split; [intros w I; apply P1, TK, I|]. split; [intros w N; apply P2; rewrite TK; exact N|]. rewrite Q. cbn [length seq map app]. destruct rest; [contradiction|discriminate].
  - assert (TW : In w (takers W R q0)) by (apply TK; apply in_or_app; right; left; reflexivity). unfold takers in TW. apply filter_In in TW. destruct TW as [TW RW]. apply in_seq in TW.
    assert (NW : ~ In w ws1) by (intros I; apply NoDup_remove_2 in ND; apply ND, in_or_app; left; exact I).
    cbn [length seq map app] in Q. set (tl := map (fun i => 3 * i) (seq (S j) (length ws2)) ++ rest) in Q. cbn [map] in Q.
    assert (TN : forall e, In e tl -> e <> 3 * j).
    { intros e I ->. unfold tl in I. apply in_app_or in I. destruct I as [I|I]; [apply in_map_iff in I; destruct I as (i & E & I); apply in_seq in I; lia|]. apply (RM _ I), triple_mod. }
    assert (WI : waiting_in s q0 (fun e => Nat.eqb e (3 * j)) = [3 * j]).
    { unfold waiting_in. rewrite Q. cbn [filter fst snd]. rewrite !Nat.eqb_refl. cbn [andb map]. rewrite filter_none; [reflexivity|]. intros x I. apply in_map_iff in I. destruct I as (e & <- & I). cbn [fst snd]. rewrite (proj2 (Nat.eqb_neq e (3 * j))) by exact (TN e I). apply andb_false_r. }
    assert (FQ : filter (fun x => negb (Nat.eqb (fst x) q0 && Nat.eqb (snd x) (3 * j))) (n_q s) = map (fun e => (q0, e)) tl).
    { rewrite Q. cbn [filter fst snd]. rewrite !Nat.eqb_refl. cbn [andb negb]. apply filter_all. intros x I. apply in_map_iff in I. destruct I as (e & <- & I). cbn [fst snd]. rewrite (proj2 (Nat.eqb_neq e (3 * j))) by exact (TN e I). rewrite andb_false_r. reflexivity. }
    cbn [starve nrun nstep]. rewrite (P2 w NW) by lia. rewrite WI, RW, (proj2 (Nat.leb_le 1 w)), (proj2 (Nat.leb_le w W)) by lia. cbn [andb]. rewrite FQ. cbn [n_prog map n_q n_begun n_done n_over n_taken]. rewrite upd_same.
    assert (FR : fronts (star k) (3 * j) = [3 * j + 1; 3 * j + 2]).
    { unfold fronts. cbn [star e_dep e_kids]. rewrite filter_all by reflexivity. unfold star_kids. destruct (Nat.eqb_spec (3 * j) 0); [lia|]. rewrite triple_mod, triple_div. cbn [length] in J. rewrite (proj2 (Nat.leb_le j k)) by lia. reflexivity. }
    assert (KE : e_kind (star k) (3 * j) = KPar) by (cbn [star e_kind]; rewrite triple_mod; reflexivity). rewrite KE, FR. cbn [own_ok tops app given filter map n_q n_begun n_done n_over n_taken].
    apply (IH (ws1 ++ [w]) (S j) _ (rest ++ [3 * j + 1; 3 * j + 2])); cbn [n_prog n_q n_done].
    + cbn [length] in J. lia.
    + lia.
    + rewrite <- app_assoc. exact ND.
    + intros u. rewrite <- app_assoc. apply TK.
    + exact D.
    + unfold tl. rewrite app_assoc, (map_app _ _ [3 * j + 1; 3 * j + 2]). reflexivity.
    + intros e I. apply in_app_or in I. destruct I as [I|[<-|[<-|[]]]]; [exact (RM e I)| |]; rewrite mod3; lia.
    + destruct rest; discriminate.
    + rewrite !upd_other by lia. exact P0.
    + intros u I. apply snoc_in in I. destruct (Nat.eq_dec u w) as [->|N]; [exists j; split; [cbn [length] in J; lia|rewrite upd_same; reflexivity]|]. destruct I as [I|I]; [|contradiction]. rewrite !upd_other by exact N. apply P1, I.
    + intros u N Z. rewrite snoc_in in N. rewrite !upd_other by tauto. apply P2; tauto.
Qed.
Theorem starved W R q0 : exists ls s, nrun (star (length (takers W R q0))) W R (n_init (star (length (takers W R q0)))) ls = Some s /\
  (forall t own pl, In (LGo t own pl) ls -> own = None /\ forall e, pl e = q0) /\ blocked (star (length (takers W R q0))) W R s /\ n_done s = [] /\ n_q s <> [].
Proof.
  set (ws := takers W R q0). set (k := length ws).
  assert (ND : NoDup ws) by (apply nodup_filter, seq_NoDup).
  assert (FR : fronts (star k) 0 = map (fun i => 3 * i) (seq 1 k) ++ [1]) by (unfold fronts; cbn [star e_dep e_kids]; rewrite filter_all by reflexivity; reflexivity).
  set (s1 := mkN (upd (n_prog (n_init (star k))) 0 [Wait 0; End 0]) (map (fun e => (q0, e)) (map (fun i => 3 * i) (seq 1 k) ++ [1])) [0] [] [] []).
  assert (S1 : nstep (star k) W R (n_init (star k)) (LGo 0 None (fun _ => q0)) = Some s1).
  { cbn [nstep n_init n_prog]. cbn [Nat.eqb star e_root]. replace (e_kind (star k) 0) with KPar by reflexivity. rewrite FR. cbn [own_ok tops app n_q n_begun n_done n_over n_taken]. unfold given. rewrite filter_all by reflexivity. reflexivity. }
  destruct (starve_run k W R q0 ws [] 1 s1 [1]) as (s & RUN & D & QA & P0 & PT & PN & QN); try (cbn [s1 n_prog n_done n_q app length]; reflexivity || assumption || lia).
  - intros e [<-|[]]. discriminate.
  - discriminate.
  - intros w [].
  - intros w _ N. cbn [s1 n_prog]. rewrite upd_other by exact N. cbn [n_init n_prog]. destruct (Nat.eqb_spec w 0); [contradiction|reflexivity].
  - exists (LGo 0 None (fun _ => q0) :: starve q0 1 ws), s. split; [cbn [nrun]; rewrite S1; exact RUN|]. split; [|split; [|split; [exact D|exact QN]]].
    + assert (X : forall l j t own pl, In (LGo t own pl) (starve q0 j l) -> own = None /\ forall e, pl e = q0).
      { induction l as [|w l IH]; intros j t own pl; cbn [starve In]; [intros []|]. intros [E|[E|I]]; [discriminate E|injection E as <- <- <-; auto|exact (IH _ _ _ _ I)]. }
      intros t own pl [E|I]; [injection E as <- <- <-; auto|exact (X _ _ _ _ _ I)].
    + assert (WT : forall i, 1 <= i <= k -> forallb (fun c => memb c (@nil nat)) (e_kids (star k) (3 * i)) = false).
      { intros i L. cbn [star e_kids]. unfold star_kids. destruct (Nat.eqb_spec (3 * i) 0); [lia|]. rewrite triple_mod, triple_div, (proj2 (Nat.leb_le i k)) by lia. reflexivity. }
      assert (W0 : forallb (fun c => memb c (@nil nat)) (e_kids (star k) 0) = false).
      { cbn [star e_kids]. unfold star_kids. cbn [Nat.eqb]. destruct (map (fun i => 3 * i) (seq 1 k)); reflexivity. }
      intros [w q f back|t own pl]; cbn [nstep].
      * destruct (in_dec Nat.eq_dec w ws) as [I|N]; [destruct (PT w I) as (i & _ & ->); reflexivity|].
        destruct (n_prog s w) eqn:P; [|reflexivity]. destruct (waiting_in s q f) as [|x r] eqn:WI; [reflexivity|]. destruct (Nat.leb 1 w && Nat.leb w W && R w q) eqn:G; [exfalso|reflexivity].
        assert (QE : q = q0).
        { assert (I : In x (waiting_in s q f)) by (rewrite WI; left; reflexivity). unfold waiting_in in I. apply in_map_iff in I. destruct I as (y & _ & I). apply filter_In in I. destruct I as [I J]. apply andb_true_iff in J. destruct J as [J _]. apply Nat.eqb_eq in J. rewrite <- J. apply QA, I. }
        subst q. apply andb_true_iff in G. destruct G as [G G3]. apply andb_true_iff in G. destruct G as [G1 G2]. apply Nat.leb_le in G1, G2. apply N. unfold ws, takers. apply filter_In. split; [apply in_seq; lia|exact G3].
      * destruct (Nat.eq_dec t 0) as [->|Z]; [rewrite P0, D, W0; reflexivity|].
        destruct (in_dec Nat.eq_dec t ws) as [I|N]; [destruct (PT t I) as (i & L & ->); rewrite D, (WT i L); reflexivity|rewrite (PN t N Z); reflexivity].
Qed.
