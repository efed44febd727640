From Verif Require Import PassSpec.
From Coq Require Import Lia.
Local Open Scope nat_scope.
Local Open Scope list_scope.

Lemma updw_same {A} (f : who -> A) w x : updw f w x w = x.
Proof. unfold updw. now destruct (who_dec w w). Qed.
Lemma updw_other {A} (f : who -> A) w x u : u <> w -> updw f w x u = f u.
Proof. unfold updw. now destruct (who_dec u w). Qed.

(** Where pointers to objects are kept *)
Inductive root := Var (n : nat) | Own (w : who) | Lost (o : nat).
Definition root_dec (a b : root) : {a = b} + {a <> b}.
Proof. decide equality; try apply Nat.eq_dec. apply who_dec. Defined.
Definition pt (s : dst) (a : root) : option nat :=
  match a with Var n => d_var s n | Own w => d_own s w | Lost o => if memb o (d_lost s) then Some o else None end.

Record K (h : nat -> option (nat * nat)) (n : nat) (p : root -> option nat) : Prop :=
  { k_inj : forall a b o, p a = Some o -> p b = Some o -> a = b;
    k_heap : forall a o, p a = Some o -> h o <> None;
    k_live : forall o, h o <> None -> exists a, p a = Some o;
    k_below : forall o, h o <> None -> o < n }.
Lemma K_new h n p p' a x : K h n p -> p a = None -> (forall b, p' b = if root_dec b a then Some n else p b) -> K (upd h n (Some x)) (S n) p'.
Proof.
  intros I P E.
  assert (F : forall b o, p b = Some o -> o <> n).
  { intros b o B ->. apply (k_heap _ _ _ I) in B. apply (k_below _ _ _ I) in B. lia. }
  split.
  - intros b c o. rewrite !E. destruct (root_dec b a), (root_dec c a); intros B C; try congruence.
    + injection B as <-. now apply F in C.
    + injection C as <-. now apply F in B.
    + now apply (k_inj _ _ _ I b c o).
  - intros b o. rewrite E. destruct (root_dec b a); intros B.
    + injection B as <-. now rewrite upd_same.
    + rewrite upd_other by (eapply F; eassumption). now apply (k_heap _ _ _ I b).
  - intros o. destruct (Nat.eq_dec o n) as [->|N]; intros B.
    + exists a. rewrite E. now destruct (root_dec a a).
    + rewrite upd_other in B by trivial. destruct (k_live _ _ _ I o B) as (b & B'). exists b. rewrite E.
      destruct (root_dec b a); congruence.
  - intros o. destruct (Nat.eq_dec o n) as [->|N]; intros B; [lia|]. rewrite upd_other in B by trivial. apply (k_below _ _ _ I) in B. lia.
Qed.
Lemma K_del h n p p' a o : K h n p -> p a = Some o -> (forall b, p' b = if root_dec b a then None else p b) -> K (upd h o None) n p'.
Proof.
  intros I P E. split.
  - intros b c x. rewrite !E. destruct (root_dec b a), (root_dec c a); try congruence. apply (k_inj _ _ _ I).
  - intros b x. rewrite E. destruct (root_dec b a); [congruence|]. intros B.
    assert (x <> o) by (intros ->; pose proof (k_inj _ _ _ I a b o P B); congruence). rewrite upd_other by trivial. now apply (k_heap _ _ _ I b).
  - intros x. destruct (Nat.eq_dec x o) as [->|N]; [now rewrite upd_same|]. rewrite upd_other by trivial. intros B.
    destruct (k_live _ _ _ I x B) as (b & B'). exists b. rewrite E. destruct (root_dec b a); congruence.
  - intros x. destruct (Nat.eq_dec x o) as [->|N]; [now rewrite upd_same|]. rewrite upd_other by trivial. apply (k_below _ _ _ I).
Qed.
Lemma K_write h n p o x : K h n p -> h o <> None -> K (upd h o (Some x)) n p.
Proof.
  intros I L. assert (E : forall y, upd h o (Some x) y <> None <-> h y <> None).
  { intros y. destruct (Nat.eq_dec y o) as [->|N]; [rewrite upd_same; split; congruence|now rewrite upd_other]. }
  split.
  - apply (k_inj _ _ _ I).
  - intros a y P. apply E. now apply (k_heap _ _ _ I a).
  - intros y P. now apply (k_live _ _ _ I), E.
  - intros y P. now apply (k_below _ _ _ I), E.
Qed.
Lemma K_ext h n p p' : K h n p -> (forall a, p' a = p a) -> K h n p'.
Proof.
  intros I E. split.
  - intros a b o. rewrite !E. apply (k_inj _ _ _ I).
  - intros a o. rewrite E. apply (k_heap _ _ _ I).
  - intros o L. destruct (k_live _ _ _ I o L) as (a & A). exists a. now rewrite E.
  - apply (k_below _ _ _ I).
Qed.

Definition val (s : dst) (a : root) : option (nat * nat) := match pt s a with None => None | Some o => d_heap s o end.
(** The states agree, apart from who is there *)
Record R0 (s : dst) (v : vst) : Prop :=
  { r_k : K (d_heap s) (d_next s) (pt s);
    r_var : forall n, v_var v n = val s (Var n);
    r_own : forall w, v_own v w = val s (Own w);
    r_asp : forall e, v_asp v e = d_asp s e;
    r_dae : v_dae v = d_dae s;
    r_ev : v_ev v = d_ev s;
    r_st : v_st v = d_st s;
    r_loc : v_loc v = d_loc s;
    r_init : v_init v = d_init s }.
Definition known (all : list nat) (s : dst) : Prop :=
  (forall w, d_own s w <> None -> In w (d_all all s)) /\ (forall e, d_asp s e <> 0 -> In e all).
Definition R (all : list nat) (s : dst) (v : vst) : Prop := R0 s v /\ known all s.

Lemma R_new all : R all d_new v_new.
Proof.
  split; [|split; [now intros w H|now intros e H]]. split; try reflexivity. split; cbn; try congruence; try (intros; congruence).
  - intros a b o. destruct a; cbn; discriminate.
  - intros a o. destruct a; cbn; discriminate.
Qed.

Lemma val_some s v r : R0 s v ->
  match deref s r with None => v_ref v r = None | Some o => d_heap s o = v_ref v r /\ v_ref v r <> None end.
Proof.
  intros I. destruct r as [n|w|]; cbn [deref v_ref]; trivial.
  - rewrite (r_var _ _ I n). unfold val; cbn [pt]. destruct (d_var s n) as [o|] eqn:E; trivial. split; trivial. now apply (k_heap _ _ _ (r_k _ _ I) (Var n) o).
  - rewrite (r_own _ _ I w). unfold val; cbn [pt]. destruct (d_own s w) as [o|] eqn:E; trivial. split; trivial. now apply (k_heap _ _ _ (r_k _ _ I) (Own w) o).
Qed.

(** Deleting what [w] holds *)
Lemma release_R0 s v w : R0 s v -> exists s1, d_release s w = Some s1 /\ R0 s1 (v_with v (updw (v_own v) w None))
  /\ (forall o, d_own s w <> Some o -> d_heap s1 o = d_heap s o)
  /\ d_var s1 = d_var s /\ (forall u, d_own s1 u = if who_dec u w then None else d_own s u) /\ d_lost s1 = d_lost s
  /\ d_asp s1 = d_asp s /\ d_dae s1 = d_dae s /\ d_ev s1 = d_ev s /\ d_st s1 = d_st s /\ d_loc s1 = d_loc s /\ d_init s1 = d_init s.
Proof.
  intros I. unfold d_release. destruct (d_own s w) as [o|] eqn:E.
  - unfold h_del. destruct (d_heap s o) as [x|] eqn:X; [|now pose proof (k_heap _ _ _ (r_k _ _ I) (Own w) o E)].
    eexists. split; [reflexivity|]. cbn [set_own set_heap d_var d_own d_lost d_asp d_dae d_ev d_st d_loc d_init d_heap d_next].
    split; [|split; [intros o' N; apply upd_other; congruence|split; [reflexivity|split; [intros u; reflexivity|now repeat (split; [reflexivity|])]]]].
    assert (KK : K (upd (d_heap s) o None) (d_next s) (pt (set_own (set_heap s (upd (d_heap s) o None) (d_next s)) w None))).
    { apply (K_del _ _ (pt s) _ (Own w) o (r_k _ _ I) E). intros b. destruct b as [m|u|q]; cbn [pt set_own set_heap d_var d_own d_lost].
      - now destruct (root_dec (Var m) (Own w)).
      - unfold updw. destruct (who_dec u w), (root_dec (Own u) (Own w)); congruence.
      - now destruct (root_dec (Lost q) (Own w)). }
    split; try apply I; cbn [v_with v_var v_own v_asp v_dae v_ev v_st v_loc v_init].
    + exact KK.
    + intros n. rewrite (r_var _ _ I n). unfold val; cbn [pt set_own set_heap d_var d_heap].
      destruct (d_var s n) as [o'|] eqn:V; trivial. rewrite upd_other; trivial. intros ->.
      now pose proof (k_inj _ _ _ (r_k _ _ I) (Var n) (Own w) o V E).
    + intros u. unfold val; cbn [pt set_own set_heap d_own d_heap]. unfold updw. destruct (who_dec u w) as [->|N]; trivial.
      rewrite (r_own _ _ I u). unfold val; cbn [pt]. destruct (d_own s u) as [o'|] eqn:V; trivial. rewrite upd_other; trivial. intros ->.
      pose proof (k_inj _ _ _ (r_k _ _ I) (Own u) (Own w) o V E). congruence.
  - exists s. split; [reflexivity|]. split; [|split; [reflexivity|split; [reflexivity|split; [|now repeat (split; [reflexivity|])]]]].
    + split; try apply I; cbn [v_with v_var v_own v_asp v_dae v_ev v_st v_loc v_init].
      intros u. unfold updw. destruct (who_dec u w) as [->|N]; [|apply I]. unfold val; cbn [pt]. now rewrite E.
    + intros u. destruct (who_dec u w); congruence.
Qed.

Ltac fields := cbn [set_own set_heap set_var set_asp set_dae set_ev set_st set_loc set_ini set_lost d_heap d_next d_var d_own d_asp d_dae d_ev d_st d_loc d_init d_lost
                    v_with v_var v_own v_asp v_dae v_ev v_st v_loc v_init].
(** Passing a parameter to somebody else *)
Lemma set_R0 cl s v w T r : R0 s v -> (r <> RHold w \/ d_own s w = None) ->
  exists s1, d_set cl s w T r = Some s1 /\ R0 s1 (v_pass cl v w T r)
  /\ d_asp s1 = d_asp s /\ d_dae s1 = d_dae s /\ d_ev s1 = d_ev s /\ d_st s1 = d_st s /\ d_loc s1 = d_loc s /\ d_init s1 = d_init s
  /\ d_lost s1 = d_lost s /\ (forall u, u <> w -> d_own s1 u = d_own s u).
Proof.
  intros I NR. unfold d_set, v_pass. pose proof (val_some s v r I) as Hv. destruct (deref s r) as [o|] eqn:D.
  2: { rewrite Hv. exists s. now repeat (split; [first [assumption|reflexivity]|]). }
  destruct Hv as (Ho & Hn). destruct (v_ref v r) as [[ty x]|] eqn:Vr; [|now elim Hn].
  destruct (release_R0 s v w I) as (s1 & E1 & I1 & HH & Ev & Eo & El & Ea & Ed & Ee & Es & Ec & Ei). rewrite E1.
  assert (NO : d_own s w <> Some o).
  { intros EQ. destruct r as [n|u|]; cbn [deref] in D; [| |discriminate].
    - now pose proof (k_inj _ _ _ (r_k _ _ I) (Var n) (Own w) o D EQ).
    - destruct NR as [NR|NR]; [|congruence]. pose proof (k_inj _ _ _ (r_k _ _ I) (Own u) (Own w) o D EQ). congruence. }
  unfold d_clone. rewrite (HH o NO), Ho. unfold h_new. eexists. split; [reflexivity|].
  set (s2 := set_own _ w _).
  assert (KK : K (d_heap s2) (d_next s2) (pt s2)).
  { apply (K_new _ _ (pt s1) _ (Own w) (T, cl T ty x) (r_k _ _ I1)).
    - cbn [pt]. rewrite Eo. now destruct (who_dec w w).
    - intros b. unfold s2. destruct b as [m|u|q]; cbn [pt]; fields.
      + now destruct (root_dec (Var m) (Own w)).
      + unfold updw. destruct (who_dec u w), (root_dec (Own u) (Own w)); congruence.
      + now destruct (root_dec (Lost q) (Own w)). }
  assert (FR : forall b o', pt s1 b = Some o' -> o' <> d_next s1).
  { intros b o' P ->. apply (k_heap _ _ _ (r_k _ _ I1)) in P. apply (k_below _ _ _ (r_k _ _ I1)) in P. lia. }
  split; [|unfold s2; fields; repeat (split; [assumption|]); intros u N; rewrite updw_other by trivial; rewrite Eo; now destruct (who_dec u w)].
  pose proof (r_var _ _ I1) as RV. pose proof (r_own _ _ I1) as RO. cbn [v_with v_var v_own] in RV, RO.
  split; fields.
  - exact KK.
  - intros n. rewrite RV. unfold val, s2; cbn [pt]; fields.
    destruct (d_var s1 n) as [o'|] eqn:V; trivial. rewrite upd_other; [trivial|eapply (FR (Var n)); eassumption].
  - intros u. unfold val, s2; cbn [pt]; fields. unfold updw at 1 2. destruct (who_dec u w) as [->|N]; [now rewrite upd_same|].
    specialize (RO u). rewrite updw_other in RO by trivial. rewrite RO. unfold val; cbn [pt].
    destruct (d_own s1 u) as [o'|] eqn:V; trivial. rewrite upd_other; [trivial|eapply (FR (Own u)); eassumption].
  - intros e. unfold s2; fields. rewrite Ea. apply I.
  - unfold s2; fields. rewrite Ed. apply I.
  - unfold s2; fields. rewrite Ee. apply I.
  - unfold s2; fields. rewrite Es. apply I.
  - unfold s2; fields. rewrite Ec. apply I.
  - unfold s2; fields. rewrite Ei. apply I.
Qed.

Lemma in_all all s w : In w (d_all all s) <->
  match w with
  | WAsp e k => In e all /\ k < d_asp s e
  | WDae k => k < d_dae s
  | WEv k => In k (d_ev s)
  | WSt k => In k (d_st s)
  | WLoc e k => In (e, k) (d_loc s)
  end.
Proof.
  unfold d_all. rewrite !in_app_iff, in_concat.
  assert (A : (exists l, In l (map (fun e => map (WAsp e) (seq 0 (d_asp s e))) all) /\ In w l)
              <-> exists e k, w = WAsp e k /\ In e all /\ k < d_asp s e).
  { split.
    - intros (l & Hl & Hw). apply in_map_iff in Hl as (e & <- & He). apply in_map_iff in Hw as (k & <- & Hk). apply in_seq in Hk. exists e, k. lia || (split; [reflexivity|split; [exact He|lia]]).
    - intros (e & k & -> & He & Hk). exists (map (WAsp e) (seq 0 (d_asp s e))). split; [now apply (in_map (fun e => map (WAsp e) (seq 0 (d_asp s e))))|].
      apply in_map, in_seq. lia. }
  rewrite A, !in_map_iff. split.
  - intros [(e & k & -> & H)|[(k & <- & H)|[(k & <- & H)|[(k & <- & H)|([e k] & <- & H)]]]]; trivial. apply in_seq in H. lia.
  - destruct w as [e k|k|k|k|e k]; intros H.
    + left. exists e, k. now split.
    + right; left. exists k. split; trivial. apply in_seq. lia.
    + right; right; left. exists k. now split.
    + right; right; right; left. exists k. now split.
    + right; right; right; right. exists (e, k). now split.
Qed.
Lemma known_step all s s' w : known all s -> (forall u, u <> w -> d_own s' u = d_own s u) ->
  (forall u, In u (d_all all s) -> In u (d_all all s')) -> In w (d_all all s') -> (forall e, d_asp s' e <> 0 -> In e all) -> known all s'.
Proof.
  intros [Kn _] Ho Hm Hw Ha. split; trivial. intros u Hu. destruct (who_dec u w) as [->|N]; trivial. rewrite (Ho u N) in Hu. now apply Hm, Kn.
Qed.
Lemma pair_memb_in e k l : pair_memb e k l = true <-> In (e, k) l.
Proof.
  unfold pair_memb. rewrite existsb_exists. split.
  - intros ([a b] & H & E). apply andb_prop in E as [E1 E2]. cbn in E1, E2. apply Nat.eqb_eq in E1, E2. now subst.
  - intros H. exists (e, k). split; trivial. cbn. now rewrite !Nat.eqb_refl.
Qed.
Lemma there_eq s v w : R0 s v -> v_there v w = there s w.
Proof.
  intros I. destruct w; cbn [v_there there].
  - now rewrite (r_asp _ _ I).
  - now rewrite (r_dae _ _ I).
  - now rewrite (r_ev _ _ I).
  - now rewrite (r_st _ _ I).
  - now rewrite (r_loc _ _ I).
Qed.

Lemma aspect_R cl all s v e T r : R all s v -> In e all ->
  exists s1, d_aspect cl s e T r = Some s1 /\ R all s1 (v_aspect cl v e T r) /\ d_init s1 = d_init s /\ d_st s1 = d_st s /\ d_lost s1 = d_lost s.
Proof.
  intros [I Kn] He. unfold d_aspect, v_aspect. rewrite (r_asp _ _ I e).
  assert (NW : d_own s (WAsp e (d_asp s e)) = None).
  { destruct (d_own s (WAsp e (d_asp s e))) eqn:E; trivial. assert (F : In (WAsp e (d_asp s e)) (d_all all s)) by (apply (proj1 Kn); congruence).
    apply in_all in F. lia. }
  destruct (set_R0 cl s v (WAsp e (d_asp s e)) T r I (or_intror NW)) as (s1 & E & I1 & Ea & Ed & Ee & Es & Ec & Ei & El & Ho).
  rewrite E. eexists. split; [reflexivity|]. split; [|fields; now split; [|split]]. split.
  - split; fields; try apply I1. intros x. destruct (Nat.eq_dec x e) as [->|N].
    + rewrite !upd_same. f_equal. apply I1.
    + rewrite !upd_other by trivial. apply I1.
  - apply (known_step all s _ (WAsp e (d_asp s e)) Kn).
    + intros u N. fields. now apply Ho.
    + intros u Hu. apply in_all. apply in_all in Hu. destruct u as [e' k|k|k|k|e' k]; fields; rewrite ?Ea, ?Ed, ?Ee, ?Es, ?Ec; trivial.
      destruct (Nat.eq_dec e' e) as [->|N]; [rewrite upd_same|rewrite upd_other by trivial]; intuition lia.
    + apply in_all. fields. rewrite Ea, upd_same. split; [trivial|lia].
    + intros x. fields. destruct (Nat.eq_dec x e) as [->|N]; [trivial|rewrite upd_other, Ea by trivial; apply Kn].
Qed.
Lemma aspects_R cl all T r : forall es s v, R all s v ->
  exists s1, d_aspects cl all s es T r = Some s1
  /\ R all s1 (fold_left (fun u e => v_aspect cl u e T r) (filter (fun e => memb e all) es) v)
  /\ d_init s1 = d_init s /\ d_st s1 = d_st s /\ d_lost s1 = d_lost s.
Proof.
  induction es as [|e es IH]; intros s v I; cbn [d_aspects filter fold_left].
  - exists s. now repeat (split; [first [assumption|reflexivity]|]).
  - destruct (memb e all) eqn:M; [|now apply IH].
    apply memb_in in M. destruct (aspect_R cl all s v e T r I M) as (s1 & E & I1 & Ei & Es & El). rewrite E.
    destruct (IH s1 _ I1) as (s2 & E2 & I2 & Ei2 & Es2 & El2). exists s2. split; trivial. split; [exact I2|]. rewrite Ei2, Es2, El2. now split; [|split].
Qed.
Lemma releases_R0 : forall ws s v, R0 s v -> exists s1 v1, d_releases s ws = Some s1 /\ R0 s1 v1 /\ v_var v1 = v_var v
  /\ (forall w, d_own s1 w = if in_dec who_dec w ws then None else d_own s w) /\ d_var s1 = d_var s /\ d_lost s1 = d_lost s.
Proof.
  induction ws as [|w ws IH]; intros s v I; cbn [d_releases].
  - exists s, v. now repeat (split; [first [assumption|reflexivity]|]).
  - destruct (release_R0 s v w I) as (s1 & E1 & I1 & _ & Ev & Eo & El & _). rewrite E1.
    destruct (IH s1 _ I1) as (s2 & v2 & E2 & I2 & V2 & O2 & Ev2 & El2). exists s2, v2. split; trivial. split; trivial. split; [exact V2|].
    split; [|split; congruence]. intros u. rewrite O2, Eo. destruct (in_dec who_dec u (w :: ws)) as [H|H], (in_dec who_dec u ws) as [H'|H']; trivial.
    + destruct H as [->|H]; [|now elim H']. now destruct (who_dec u u).
    + elim H. now right.
    + destruct (who_dec u w) as [->|N]; trivial. elim H. now left.
Qed.

(** The keys of stages and the lost objects, for the account of memory *)
Definition lost_step (s s' : dst) (op : dop) : Prop :=
  match op with
  | DStage k _ _ => (d_st s' = d_st s \/ d_st s' = d_st s ++ [k]) /\ (~ In k (d_st s) -> d_lost s' = d_lost s)
  | DEnd => d_st s' = [] /\ d_lost s' = d_lost s
  | _ => d_st s' = d_st s /\ d_lost s' = d_lost s
  end.

Lemma step_R cl all s v op : R all s v -> ~ to_itself op ->
  match v_step cl all v op with
  | None => d_step cl all s op = None
  | Some (v1, a) => exists s1, d_step cl all s op = Some (s1, a) /\ R all s1 v1 /\ lost_step s s1 op
  end.
Proof.
  intros [I Kn] NT. destruct op as [n T x|n|r x|e T r|es T r|e k T r|e|T r|k T r|k T r|k T r|e k T r|e k T|e k T|w|b|]; cbn [v_step d_step lost_step].
  - (* DVar *)
    rewrite (r_var _ _ I n). unfold val; cbn [pt]. destruct (d_var s n) as [o|] eqn:V.
    + destruct (d_heap s o) eqn:H; [|now pose proof (k_heap _ _ _ (r_k _ _ I) (Var n) o V)]. exists s. now repeat (split; [first [reflexivity|assumption|now split]|]).
    + unfold h_new. eexists. split; [reflexivity|]. split; [|fields; now split]. 
      assert (FR : forall b o', pt s b = Some o' -> o' <> d_next s).
      { intros b o' P ->. apply (k_heap _ _ _ (r_k _ _ I)) in P. apply (k_below _ _ _ (r_k _ _ I)) in P. lia. }
      split; [split; fields; try apply I|].
      * apply (K_new _ _ (pt s) _ (Var n) (T, x) (r_k _ _ I) V). intros b. destruct b as [m|u|q]; cbn [pt]; fields.
        -- destruct (root_dec (Var m) (Var n)) as [E|N]; [injection E as ->; apply upd_same|apply upd_other; congruence].
        -- now destruct (root_dec (Own u) (Var n)).
        -- now destruct (root_dec (Lost q) (Var n)).
      * intros m. unfold val; cbn [pt]; fields. destruct (Nat.eq_dec m n) as [->|N]; [now rewrite !upd_same|].
        rewrite !upd_other by trivial. rewrite (r_var _ _ I m). unfold val; cbn [pt]. destruct (d_var s m) as [o|] eqn:Vm; trivial.
        rewrite upd_other; [trivial|eapply (FR (Var m)); eassumption].
      * intros u. rewrite (r_own _ _ I u). unfold val; cbn [pt]; fields. destruct (d_own s u) as [o|] eqn:Vm; trivial.
        rewrite upd_other; [trivial|eapply (FR (Own u)); eassumption].
      * exact Kn.
  - (* DDel *)
    rewrite (r_var _ _ I n). unfold val; cbn [pt]. destruct (d_var s n) as [o|] eqn:V.
    + unfold h_del. destruct (d_heap s o) as [y|] eqn:H; [|now pose proof (k_heap _ _ _ (r_k _ _ I) (Var n) o V)]. cbn [done]. eexists. split; [reflexivity|].
      split; [|fields; now split]. split; [split; fields; try apply I|].
      * apply (K_del _ _ (pt s) _ (Var n) o (r_k _ _ I) V). intros b. destruct b as [m|u|q]; cbn [pt]; fields.
        -- destruct (root_dec (Var m) (Var n)) as [E|N]; [injection E as ->; apply upd_same|apply upd_other; congruence].
        -- now destruct (root_dec (Own u) (Var n)).
        -- now destruct (root_dec (Lost q) (Var n)).
      * intros m. unfold val; cbn [pt]; fields. destruct (Nat.eq_dec m n) as [->|N]; [now rewrite !upd_same|].
        rewrite !upd_other by trivial. rewrite (r_var _ _ I m). unfold val; cbn [pt]. destruct (d_var s m) as [o'|] eqn:Vm; trivial.
        rewrite upd_other; trivial. intros ->. pose proof (k_inj _ _ _ (r_k _ _ I) (Var m) (Var n) o Vm V). congruence.
      * intros u. rewrite (r_own _ _ I u). unfold val; cbn [pt]; fields. destruct (d_own s u) as [o'|] eqn:Vm; trivial.
        rewrite upd_other; trivial. intros ->. now pose proof (k_inj _ _ _ (r_k _ _ I) (Own u) (Var n) o Vm V).
      * exact Kn.
    + exists s. now repeat (split; [first [reflexivity|assumption|now split]|]).
  - (* DWrite *)
    pose proof (val_some s v r I) as Hv. destruct (deref s r) as [o|] eqn:D; [|now rewrite Hv].
    destruct Hv as (Ho & Hn). rewrite Ho. destruct (v_ref v r) as [[T y]|] eqn:Vr; [|now elim Hn].
    assert (L : d_heap s o <> None) by congruence.
    pose proof (K_write _ _ _ o (T, x) (r_k _ _ I) L) as KW.
    destruct r as [n|w|]; cbn [deref] in D; [| |discriminate]; (eexists; split; [reflexivity|]; split; [|fields; now split]);
      (split; [split; fields; try apply I; try exact KW|exact Kn]).
    + intros m. unfold val; cbn [pt]; fields. destruct (Nat.eq_dec m n) as [->|N]; [now rewrite upd_same, D, upd_same|].
      rewrite (upd_other _ n _ m) by trivial. rewrite (r_var _ _ I m). unfold val; cbn [pt]. destruct (d_var s m) as [o'|] eqn:Vm; trivial.
      rewrite upd_other; trivial. intros ->. pose proof (k_inj _ _ _ (r_k _ _ I) (Var m) (Var n) o Vm D). congruence.
    + intros u. rewrite (r_own _ _ I u). unfold val; cbn [pt]; fields. destruct (d_own s u) as [o'|] eqn:Vm; trivial.
      rewrite upd_other; trivial. intros ->. now pose proof (k_inj _ _ _ (r_k _ _ I) (Own u) (Var n) o Vm D).
    + intros m. rewrite (r_var _ _ I m). unfold val; cbn [pt]; fields. destruct (d_var s m) as [o'|] eqn:Vm; trivial.
      rewrite upd_other; trivial. intros ->. now pose proof (k_inj _ _ _ (r_k _ _ I) (Var m) (Own w) o Vm D).
    + intros u. unfold val; cbn [pt]; fields. destruct (who_dec u w) as [->|N]; [now rewrite updw_same, D, upd_same|].
      rewrite updw_other by trivial. rewrite (r_own _ _ I u). unfold val; cbn [pt]. destruct (d_own s u) as [o'|] eqn:Vm; trivial.
      rewrite upd_other; trivial. intros ->. pose proof (k_inj _ _ _ (r_k _ _ I) (Own u) (Own w) o Vm D). congruence.
  - (* DAspect *)
    destruct (memb e all) eqn:M; [|exists s; now repeat (split; [first [reflexivity|assumption|now split]|])].
    apply memb_in in M. destruct (aspect_R cl all s v e T r (conj I Kn) M) as (s1 & E & I1 & _ & Es & El). exists s1. rewrite E. now repeat (split; [first [reflexivity|assumption]|]).
  - (* DAspects *)
    rewrite (r_init _ _ I). destruct (d_init s); [exists s; now repeat (split; [first [reflexivity|assumption|now split]|])|].
    destruct (aspects_R cl all T r (nodup Nat.eq_dec match es with [] => all | _ => es end) s v (conj I Kn)) as (s1 & E & I1 & _ & Es & El).
    exists s1. rewrite E. split; [reflexivity|]. split; [exact I1|now split].
  - (* DSetA *)
    rewrite (there_eq s v (WAsp e k) I). destruct (there s (WAsp e k)) eqn:Th; [|exists s; now repeat (split; [first [reflexivity|assumption|now split]|])].
    destruct (set_R0 cl s v (WAsp e k) T r I (or_introl NT)) as (s1 & E & I1 & Ea & Ed & Ee & Es & Ec & Ei & El & Ho).
    exists s1. rewrite E. split; [reflexivity|]. split; [|now split]. split; trivial.
    apply (known_step all s _ (WAsp e k) Kn Ho).
    + intros u. rewrite !in_all. now rewrite Ea, Ed, Ee, Es, Ec.
    + apply in_all. rewrite Ea. cbn [there] in Th. apply Nat.ltb_lt in Th. split; [apply Kn; lia|trivial].
    + rewrite Ea. apply Kn.
  - (* DPop *)
    unfold d_pop. rewrite (r_init _ _ I), (r_asp _ _ I e).
    destruct (d_init s) eqn:Di; [exists s; now repeat (split; [first [reflexivity|assumption|now split]|])|].
    destruct (d_asp s e) as [|k] eqn:As; [exists s; now repeat (split; [first [reflexivity|assumption|now split]|])|].
    destruct (release_R0 s v (WAsp e k) I) as (s1 & E1 & I1 & _ & Ev & Eo & El & Ea & Ed & Ee & Es & Ec & Ei). rewrite E1.
    eexists. split; [reflexivity|]. split; [|fields; now split]. split.
    + split; fields; try apply I1; [|congruence]. intros x. destruct (Nat.eq_dec x e) as [->|N]; [now rewrite !upd_same|rewrite !upd_other, Ea by trivial; apply I].
    + split.
      * intros u. fields. rewrite Eo. destruct (who_dec u (WAsp e k)) as [->|N]; [congruence|]. intros Hu.
        apply Kn in Hu. apply in_all. apply in_all in Hu. fields. rewrite Ea, Ed, Ee, Es, Ec. destruct u as [e' k'|k'|k'|k'|e' k']; trivial.
        destruct (Nat.eq_dec e' e) as [->|N']; [|now rewrite upd_other by trivial]. rewrite upd_same. rewrite As in Hu. split; [tauto|].
        assert (k' <> k) by congruence. lia.
      * intros x. fields. destruct (Nat.eq_dec x e) as [->|N]; [intros _; apply Kn; lia|rewrite upd_other, Ea by trivial; apply Kn].
  - (* DDaemon *)
    rewrite (r_init _ _ I), (r_dae _ _ I). destruct (d_init s) eqn:Di; [exists s; now repeat (split; [first [reflexivity|assumption|now split]|])|].
    assert (NW : d_own s (WDae (d_dae s)) = None).
    { destruct (d_own s (WDae (d_dae s))) eqn:E; trivial. assert (F : In (WDae (d_dae s)) (d_all all s)) by (apply (proj1 Kn); congruence).
      apply in_all in F. lia. }
    destruct (set_R0 cl s v (WDae (d_dae s)) T r I (or_intror NW)) as (s1 & E & I1 & Ea & Ed & Ee & Es & Ec & Ei & El & Ho).
    rewrite E. cbn [done]. eexists. split; [reflexivity|]. split; [|fields; now split]. split.
    + split; fields; try apply I1. f_equal. apply I1.
    + apply (known_step all s _ (WDae (d_dae s)) Kn).
      * exact Ho.
      * intros u. rewrite !in_all. fields. rewrite Ea, Ed, Ee, Es, Ec. destruct u; trivial. lia.
      * apply in_all. fields. lia.
      * fields. rewrite Ea. apply Kn.
  - (* DSetD *)
    rewrite (there_eq s v (WDae k) I). destruct (there s (WDae k)) eqn:Th; [|exists s; now repeat (split; [first [reflexivity|assumption|now split]|])].
    destruct (set_R0 cl s v (WDae k) T r I (or_introl NT)) as (s1 & E & I1 & Ea & Ed & Ee & Es & Ec & Ei & El & Ho).
    exists s1. rewrite E. split; [reflexivity|]. split; [|now split]. split; trivial.
    apply (known_step all s _ (WDae k) Kn Ho).
    + intros u. rewrite !in_all. now rewrite Ea, Ed, Ee, Es, Ec.
    + apply in_all. rewrite Ed. cbn [there] in Th. now apply Nat.ltb_lt in Th.
    + rewrite Ea. apply Kn.
  - (* DEvent *)
    unfold d_event. rewrite (r_init _ _ I), (r_ev _ _ I). destruct (d_init s) eqn:Di; [exists s; now repeat (split; [first [reflexivity|assumption|now split]|])|].
    cbn [orb]. destruct (memb k (d_ev s)) eqn:M; [exists s; now repeat (split; [first [reflexivity|assumption|now split]|])|].
    assert (NI : ~ In k (d_ev s)) by (intros F; apply memb_in in F; congruence).
    assert (NW : d_own s (WEv k) = None).
    { destruct (d_own s (WEv k)) eqn:E; trivial. assert (F : In (WEv k) (d_all all s)) by (apply (proj1 Kn); congruence). now apply in_all in F. }
    destruct (set_R0 cl s v (WEv k) T r I (or_intror NW)) as (s1 & E & I1 & Ea & Ed & Ee & Es & Ec & Ei & El & Ho).
    rewrite E. eexists. split; [reflexivity|]. split; [|fields; now split]. split.
    + split; fields; try apply I1. f_equal. apply I1.
    + apply (known_step all s _ (WEv k) Kn).
      * exact Ho.
      * intros u. rewrite !in_all. fields. rewrite Ea, Ed, Ee, Es, Ec. destruct u; trivial. intros F. apply in_or_app. now left.
      * apply in_all. fields. apply in_or_app. right. now left.
      * fields. rewrite Ea. apply Kn.
  - (* DStage *)
    unfold d_stage. rewrite (r_init _ _ I), (r_st _ _ I). destruct (d_init s) eqn:Di; [exists s; repeat (split; [first [reflexivity|assumption|now split]|]); now split; [left|]|].
    destruct (memb k (d_st s)) eqn:M.
    + apply memb_in in M. pose proof (val_some s v r I) as Hv. destruct (deref s r) as [o|] eqn:D.
      2: { exists s. repeat (split; [first [reflexivity|assumption|now split]|]). now split; [left|]. }
      destruct Hv as (Ho & Hn). unfold d_clone. destruct (v_ref v r) as [[ty x]|]; [|now elim Hn]. rewrite Ho. unfold h_new.
      eexists. split; [reflexivity|]. split; [|fields; split; [now left|tauto]].
      assert (FR : forall b o', pt s b = Some o' -> o' <> d_next s).
      { intros b o' P ->. apply (k_heap _ _ _ (r_k _ _ I)) in P. apply (k_below _ _ _ (r_k _ _ I)) in P. lia. }
      split; [split; fields; try apply I|exact Kn].
      * apply (K_new _ _ (pt s) _ (Lost (d_next s)) (T, cl T ty x) (r_k _ _ I)).
        -- destruct (pt s (Lost (d_next s))) eqn:P; trivial. cbn [pt] in P. destruct (memb (d_next s) (d_lost s)) eqn:Q; [|discriminate].
           exfalso. apply (FR (Lost (d_next s)) (d_next s)); trivial. cbn [pt]. now rewrite Q.
        -- intros b. destruct b as [m|u|q]; cbn [pt]; fields.
           ++ now destruct (root_dec (Var m) (Lost (d_next s))).
           ++ now destruct (root_dec (Own u) (Lost (d_next s))).
           ++ cbn [memb existsb]. destruct (root_dec (Lost q) (Lost (d_next s))) as [EQ|N].
              ** injection EQ as ->. cbn. now rewrite Nat.eqb_refl.
              ** assert (q <> d_next s) by congruence. cbn. destruct (Nat.eqb_spec q (d_next s)); [congruence|]. reflexivity.
      * intros m. rewrite (r_var _ _ I m). unfold val; cbn [pt]; fields. destruct (d_var s m) as [o'|] eqn:Vm; trivial.
        rewrite upd_other; [trivial|eapply (FR (Var m)); eassumption].
      * intros u. rewrite (r_own _ _ I u). unfold val; cbn [pt]; fields. destruct (d_own s u) as [o'|] eqn:Vm; trivial.
        rewrite upd_other; [trivial|eapply (FR (Own u)); eassumption].
    + assert (NI : ~ In k (d_st s)) by (intros F; apply memb_in in F; congruence).
      assert (NW : d_own s (WSt k) = None).
      { destruct (d_own s (WSt k)) eqn:E; trivial. assert (F : In (WSt k) (d_all all s)) by (apply (proj1 Kn); congruence). now apply in_all in F. }
      destruct (set_R0 cl s v (WSt k) T r I (or_intror NW)) as (s1 & E & I1 & Ea & Ed & Ee & Es & Ec & Ei & El & Ho).
      rewrite E. eexists. split; [reflexivity|]. split; [|fields; rewrite Es; now split; [right|]]. split.
      * split; fields; try apply I1. f_equal. apply I1.
      * apply (known_step all s _ (WSt k) Kn).
        -- exact Ho.
        -- intros u. rewrite !in_all. fields. rewrite Ea, Ed, Ee, Es, Ec. destruct u; trivial. intros F. apply in_or_app. now left.
        -- apply in_all. fields. apply in_or_app. right. now left.
        -- fields. rewrite Ea. apply Kn.
  - (* DLocal *)
    destruct (memb e all) eqn:M; [|exists s; now repeat (split; [first [reflexivity|assumption|now split]|])].
    unfold d_local. rewrite (r_init _ _ I). destruct (d_init s) eqn:Di; [exists s; now repeat (split; [first [reflexivity|assumption|now split]|])|].
    pose proof (val_some s v r I) as Hv. destruct (deref s r) as [o|] eqn:D.
    2: { rewrite Hv. exists s. now repeat (split; [first [reflexivity|assumption|now split]|]). }
    destruct (v_ref v r) as [y|] eqn:Vr; [|now destruct Hv].
    destruct (set_R0 cl s v (WLoc e k) T r I (or_introl NT)) as (s1 & E & I1 & Ea & Ed & Ee & Es & Ec & Ei & El & Ho).
    rewrite E. eexists. split; [reflexivity|]. rewrite (r_loc _ _ I1). destruct (pair_memb e k (d_loc s1)) eqn:PM; (split; [|fields; now split]).
    + split; [split; fields; try apply I1; reflexivity|].
      apply (known_step all s _ (WLoc e k) Kn Ho).
      * intros u. rewrite !in_all. now rewrite Ea, Ed, Ee, Es, Ec.
      * apply in_all. now apply pair_memb_in.
      * rewrite Ea. apply Kn.
    + split; [split; fields; try apply I1; reflexivity|].
      apply (known_step all s _ (WLoc e k) Kn).
      * exact Ho.
      * intros u. rewrite !in_all. fields. rewrite Ea, Ed, Ee, Es, Ec. destruct u; trivial. intros F. now right.
      * apply in_all. fields. now left.
      * fields. rewrite Ea. apply Kn.
  - (* DGetA *)
    exists s. rewrite (there_eq s v (WAsp e k) I). destruct (there s (WAsp e k)) eqn:Th; [|now repeat (split; [first [reflexivity|assumption|now split]|])].
    rewrite (r_own _ _ I). unfold val, d_look; cbn [pt]. destruct (d_own s (WAsp e k)) as [o|] eqn:O; cbn [v_typed].
    + destruct (d_heap s o) as [[T' x]|] eqn:H; [|now pose proof (k_heap _ _ _ (r_k _ _ I) (Own (WAsp e k)) o O)].
      now repeat (split; [first [reflexivity|assumption|now split]|]).
    + now repeat (split; [first [reflexivity|assumption|now split]|]).
  - (* DGetE *)
    exists s. rewrite (r_own _ _ I). unfold val, d_look; cbn [pt]. destruct (d_own s (WLoc e k)) as [o|] eqn:O; cbn [v_typed].
    + destruct (d_heap s o) as [[T' x]|] eqn:H; [|now pose proof (k_heap _ _ _ (r_k _ _ I) (Own (WLoc e k)) o O)].
      now repeat (split; [first [reflexivity|assumption|now split]|]).
    + now repeat (split; [first [reflexivity|assumption|now split]|]).
  - (* DSee *)
    exists s. rewrite (there_eq s v w I). destruct (there s w) eqn:Th; [|now repeat (split; [first [reflexivity|assumption|now split]|])].
    rewrite (r_own _ _ I). unfold val, d_look; cbn [pt]. destruct (d_own s w) as [o|] eqn:O; cbn [v_seen say].
    + destruct (d_heap s o) as [[T' x]|] eqn:H; [|now pose proof (k_heap _ _ _ (r_k _ _ I) (Own w) o O)].
      now repeat (split; [first [reflexivity|assumption|now split]|]).
    + now repeat (split; [first [reflexivity|assumption|now split]|]).
  - (* DInit *)
    eexists. split; [reflexivity|]. split; [|fields; now split]. split; [split; fields; try apply I; reflexivity|exact Kn].
  - (* DEnd *)
    destruct (releases_R0 (d_all all s) s v I) as (s1 & v1 & E & I1 & V1 & O1 & Ev & El). rewrite E. eexists. split; [reflexivity|].
    assert (NO : forall w, d_own s1 w = None).
    { intros w. rewrite O1. destruct (in_dec who_dec w (d_all all s)) as [H|H]; trivial. destruct (d_own s w) eqn:O; trivial. elim H. apply Kn. congruence. }
    split; [|fields; now split]. split.
    + split; fields; trivial.
      * apply (K_ext _ _ (pt s1) _ (r_k _ _ I1)). now intros [m|u|q].
      * intros n. rewrite <- V1. rewrite (r_var _ _ I1 n). reflexivity.
      * intros w. unfold val; cbn [pt]; fields. now rewrite NO.
    + split; fields; [intros w H; now rewrite NO in H|intros e H; now elim H].
Qed.

Lemma run_R cl all : forall h s v, R all s v -> (forall op, In op h -> ~ to_itself op) ->
  match v_run cl all v h with
  | None => d_run cl all s h = None
  | Some (v1, l) => exists s1, d_run cl all s h = Some (s1, l) /\ R all s1 v1
                    /\ (d_lost s = [] -> stage_keys_fresh (rev (d_st s)) h -> d_lost s1 = [])
  end.
Proof.
  induction h as [|op h IH]; intros s v I N; cbn [v_run d_run].
  - exists s. now split; [|split].
  - pose proof (step_R cl all s v op I (N op (or_introl eq_refl))) as St. destruct (v_step cl all v op) as [[v1 a]|]; [|now rewrite St].
    destruct St as (s1 & E1 & I1 & L1). rewrite E1.
    specialize (IH s1 v1 I1 (fun op' H => N op' (or_intror H))). destruct (v_run cl all v1 h) as [[v2 l]|]; [|now rewrite IH].
    destruct IH as (s2 & E2 & I2 & L2). exists s2. rewrite E2. split; [reflexivity|]. split; trivial.
    intros L0 F. apply L2; clear L2.
    + destruct op; cbn [lost_step stage_keys_fresh] in L1, F; try (destruct L1; congruence).
      destruct L1 as [_ L1]. rewrite L1; trivial. intros H. apply (proj1 F). now apply in_rev in H.
    + destruct op; cbn [lost_step stage_keys_fresh] in L1, F; try (destruct L1 as [-> _]; exact F).
      destruct L1 as [[->| ->] _].
      * destruct F as [_ F]. revert F. generalize (rev (d_st s)). intros q.
        assert (G : forall h q1 q2, (forall x, In x q2 -> In x q1) -> stage_keys_fresh q1 h -> stage_keys_fresh q2 h).
        { clear. induction h as [|op h IH]; intros q1 q2 Hq; trivial. destruct op; cbn [stage_keys_fresh]; try (now apply IH).
          - intros [A B]. split; [auto|]. apply (IH (k :: q1)); trivial. intros x [->|H]; [now left|right; auto]. }
        apply G. intros x H. now right.
      * rewrite rev_app_distr. exact (proj2 F).
Qed.
