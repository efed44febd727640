(** Proofs about mutable groups. *)
From Verif Require Import MutSpec DepProofs TopoProofs StaticProofs StatusProofs DynModel DynInv DynProofs DynTerm FastProofs EngineSeqProofs ParProofs GraphProps DynProps FastProps.
From Coq Require Import Lia Permutation.
Local Open Scope nat_scope.

Lemma mut_setup_fields ks : forall s e,
  let s' := mut_setup s ks in
  e_belong (m_g s' e) = e_belong (m_g s e) /\ e_mut (m_g s' e) = e_mut (m_g s e) /\ e_init (m_g s' e) = e_init (m_g s e) /\
  m_tmo s' = m_tmo s /\ m_eng s' = m_eng s /\ m_status s' = m_status s /\
  (In e ks -> e_dep (m_g s' e) = [] /\ e_succ (m_g s' e) = [] /\ m_vis s' e = false /\ m_loop s' e = 1) /\
  (~ In e ks -> m_g s' e = m_g s e /\ m_vis s' e = m_vis s e /\ m_loop s' e = m_loop s e).
Proof.
  induction ks as [|k ks IH]; intros s e; cbn [mut_setup fold_left].
  - do 6 (split; [reflexivity|]). split; [intros []|]. intros _. split; [reflexivity|]. split; reflexivity.
  - specialize (IH (mut_setup1 s k) e). cbn zeta in IH. fold (mut_setup (mut_setup1 s k) ks).
    set (s' := mut_setup (mut_setup1 s k) ks) in *. destruct IH as [I1 [I2 [I3 [I4 [I5 [I6 [I7 I8]]]]]]].
    destruct (Nat.eq_dec k e) as [->|Hne].
    + cbn [mut_setup1 m_g m_tmo m_eng m_status m_vis m_loop] in *. rewrite !upd_same in *. cbn [set_dep set_succ e_belong e_mut e_init e_dep e_succ] in *.
      do 6 (split; [assumption|]). split.
      * intros _. destruct (in_dec Nat.eq_dec e ks) as [Hin|Hout]; [auto|]. destruct (I8 Hout) as [J1 [J2 J3]]. rewrite J1, J2, J3.
        split; [reflexivity|]. split; [reflexivity|]. split; reflexivity.
      * intros Hx. exfalso. apply Hx. left. reflexivity.
    + cbn [mut_setup1 m_g m_tmo m_eng m_status m_vis m_loop] in *. rewrite !upd_other in * by congruence.
      do 6 (split; [assumption|]). split.
      * intros [E|Hin]; [congruence|auto].
      * intros Hx. apply I8. intros Hin. apply Hx. right. exact Hin.
Qed.

(** State after the operations [done]. *)
Record RI (s0 s : mst) (ks : list nat) (done : list rop) : Prop := {
  ri_belong : forall e, e_belong (m_g s e) = e_belong (m_g s0 e);
  ri_mut : forall e, e_mut (m_g s e) = e_mut (m_g s0 e);
  ri_rest : m_tmo s = m_tmo s0 /\ m_eng s = m_eng s0 /\ m_status s = m_status s0;
  ri_dep : forall e, In e ks -> NoDup (e_dep (m_g s e)) /\ forall d, In d (e_dep (m_g s e)) <-> linked done d e;
  ri_succ : forall e, In e ks -> NoDup (e_succ (m_g s e)) /\ forall d, In d (e_succ (m_g s e)) <-> linked done e d;
  ri_vis : forall e, In e ks -> m_vis s e = shown done e /\ m_loop s e = times (m_tmo s0 e) done e;
  ri_out : forall e, ~ In e ks -> m_g s e = m_g s0 e /\ m_vis s e = m_vis s0 e /\ m_loop s e = m_loop s0 e
}.

Lemma RI_start s0 ks : RI s0 (mut_setup s0 ks) ks [].
Proof.
  split.
  - intros e. apply (mut_setup_fields ks s0 e).
  - intros e. apply (mut_setup_fields ks s0 e).
  - destruct (mut_setup_fields ks s0 0) as [_ [_ [_ [A [B [C _]]]]]]. auto.
  - intros e He. destruct (mut_setup_fields ks s0 e) as [_ [_ [_ [_ [_ [_ [A _]]]]]]]. destruct (A He) as [-> _]. split; [constructor|]. intros d. split; [intros []|intros [_ []]].
  - intros e He. destruct (mut_setup_fields ks s0 e) as [_ [_ [_ [_ [_ [_ [A _]]]]]]]. destruct (A He) as [_ [-> _]]. split; [constructor|]. intros d. split; [intros []|intros [_ []]].
  - intros e He. destruct (mut_setup_fields ks s0 e) as [_ [_ [_ [_ [_ [_ [A _]]]]]]]. destruct (A He) as [_ [_ A']]. exact A'.
  - intros e He. apply (mut_setup_fields ks s0 e). exact He.
Qed.

Lemma linked_snoc done o d e : linked (done ++ [o]) d e <-> linked done d e \/ (d <> e /\ o = RLink d (Some e)).
Proof. unfold linked. rewrite in_app_iff. cbn [In]. intuition. Qed.

Lemma linked_other done o d e : (forall a b, o <> RLink a (Some b)) -> (linked (done ++ [o]) d e <-> linked done d e).
Proof. intros H. rewrite linked_snoc. specialize (H d e). tauto. Qed.

Lemma locked_false s e : e_mut (m_g s e) = true -> locked s e = false.
Proof. unfold locked. intros ->. apply andb_false_r. Qed.

Lemma addDepend_one g a b : e_mut (g b) = true -> e_belong (g a) = e_belong (g b) ->
  exists g', addDepend g b [Some a] = (g', true) /\
    (forall e, e_belong (g' e) = e_belong (g e) /\ e_mut (g' e) = e_mut (g e)) /\
    (forall e, e_dep (g' e) = if Nat.eqb e b && negb (Nat.eqb a b) then ins (e_dep (g e)) a else e_dep (g e)) /\
    (forall e, e_succ (g' e) = if Nat.eqb e a && negb (Nat.eqb a b) then ins (e_succ (g e)) b else e_succ (g e)) /\
    (forall e, e <> a -> e <> b -> g' e = g e).
Proof.
  intros Hm Hb. unfold addDepend. rewrite Hm. cbn [negb andb addDepend_loop].
  assert (E : obelong_eqb (e_belong (g a)) (e_belong (g b)) = true) by (apply obelong_eqb_eq; exact Hb). rewrite E. cbn [negb].
  destruct (Nat.eqb_spec b a) as [->|Hne].
  - eexists. split; [reflexivity|]. rewrite Nat.eqb_refl. cbn [negb]. split; [|split; [|split]].
    + intros e. unfold upd. destruct (Nat.eqb_spec e a) as [->|]; split; reflexivity.
    + intros e. rewrite andb_false_r. unfold upd. destruct (Nat.eqb_spec e a) as [->|]; reflexivity.
    + intros e. rewrite andb_false_r. unfold upd. destruct (Nat.eqb_spec e a) as [->|]; reflexivity.
    + intros e H1 _. rewrite upd_other by congruence. reflexivity.
  - fold (add1 g b a). eexists. split; [reflexivity|]. destruct (Nat.eqb_spec a b) as [|_]; [congruence|]. cbn [negb].
    pose proof (fun e => add1_fields g b a e ltac:(congruence)) as F. split; [|split; [|split]].
    + intros e. destruct (F e) as [_ [_ [F1 [_ [F2 _]]]]]. unfold upd at 1 2. destruct (Nat.eqb_spec e b) as [->|]; cbn [set_left e_belong e_mut]; auto.
    + intros e. destruct (F e) as [F1 _]. rewrite andb_true_r. rewrite <- F1. unfold upd at 1. destruct (Nat.eqb_spec e b) as [X|X]; [rewrite X|]; reflexivity.
    + intros e. destruct (F e) as [_ [F1 _]]. rewrite andb_true_r. rewrite <- F1. unfold upd at 1. destruct (Nat.eqb_spec e b) as [X|X]; [rewrite X|]; reflexivity.
    + intros e H1 H2. rewrite upd_other by congruence. unfold add1. rewrite !upd_other by congruence. reflexivity.
Qed.

Lemma shown_snoc done o e : shown (done ++ [o]) e =
  match o with
  | RLink a (Some b) => Nat.eqb a e || Nat.eqb b e || shown done e
  | RShow a x => if Nat.eqb a e then x else shown done e
  | _ => shown done e end.
Proof. unfold shown. rewrite fold_left_app. reflexivity. Qed.
Lemma times_snoc t done o e : times t (done ++ [o]) e =
  match o with
  | RTimes a k => if Nat.eqb a e && negb (t && negb (Nat.eqb k 1)) then k else times t done e
  | _ => times t done e end.
Proof. unfold times. rewrite fold_left_app. reflexivity. Qed.

Lemma RI_step s0 s m ks done o : children s0 m ks -> RI s0 s ks done -> rop_on ks o ->
  exists s', rop_step s o = Some s' /\ RI s0 s' ks (done ++ [o]).
Proof.
  intros [Hnd Hk] R Ho. assert (Hm : forall e, In e ks -> e_mut (m_g s e) = true /\ e_belong (m_g s e) = Some m).
  { intros e He. rewrite (ri_mut _ _ _ _ R), (ri_belong _ _ _ _ R). destruct (Hk e He). auto. }
  destruct o as [a b|a v|a n]; cbn [rop_on rop_step] in *.
  - destruct Ho as [Ha [x [-> Hx]]]. destruct (Hm a Ha) as [Ma Ba], (Hm x Hx) as [Mx Bx].
    rewrite (locked_false s a Ma). destruct (addDepend_one (m_g s) a x Mx ltac:(congruence)) as [g' [E [F1 [F2 [F3 F4]]]]]. rewrite E.
    rewrite locked_false by (cbn [with_g m_g]; rewrite (proj2 (F1 x)); exact Mx). eexists. split; [reflexivity|].
    split; cbn [with_vis with_g m_g m_vis m_loop m_tmo m_eng m_status].
    + intros e. rewrite (proj1 (F1 e)). apply (ri_belong _ _ _ _ R).
    + intros e. rewrite (proj2 (F1 e)). apply (ri_mut _ _ _ _ R).
    + apply (ri_rest _ _ _ _ R).
    + intros e He. rewrite F2. destruct (ri_dep _ _ _ _ R e He) as [N I].
      destruct (Nat.eqb_spec e x) as [->|Hne]; [destruct (Nat.eqb_spec a x) as [->|Hax]|]; cbn [andb negb].
      * split; [exact N|]. intros d. rewrite I, linked_snoc. split; [auto|]. intros [H|[H1 H2]]; [exact H|]. injection H2 as E1. congruence.
      * split; [apply ins_nodup; exact N|]. intros d. rewrite ins_in, I, linked_snoc. split; intros [H|H]; auto.
        -- subst d. right. auto.
        -- right. destruct H as [H1 H2]. injection H2 as E1. auto.
      * split; [exact N|]. intros d. rewrite I, linked_snoc. split; [auto|]. intros [H|[H1 H2]]; [exact H|]. injection H2 as E1 E2. congruence.
    + intros e He. rewrite F3. destruct (ri_succ _ _ _ _ R e He) as [N I].
      destruct (Nat.eqb_spec e a) as [->|Hne]; [destruct (Nat.eqb_spec a x) as [->|Hax]|]; cbn [andb negb].
      * split; [exact N|]. intros d. rewrite I, linked_snoc. split; [auto|]. intros [H|[H1 H2]]; [exact H|]. injection H2 as E1. congruence.
      * split; [apply ins_nodup; exact N|]. intros d. rewrite ins_in, I, linked_snoc. split; intros [H|H]; auto.
        -- subst d. right. auto.
        -- right. destruct H as [H1 H2]. injection H2 as E1. auto.
      * split; [exact N|]. intros d. rewrite I, linked_snoc. split; [auto|]. intros [H|[H1 H2]]; [exact H|]. injection H2 as E1 E2. congruence.
    + intros e He. destruct (ri_vis _ _ _ _ R e He) as [V L]. rewrite shown_snoc, times_snoc. split; [|exact L].
      unfold upd. rewrite (Nat.eqb_sym a e), (Nat.eqb_sym x e). destruct (Nat.eqb e x); [rewrite orb_true_r; reflexivity|]. destruct (Nat.eqb e a); [reflexivity|]. exact V.
    + intros e He. destruct (ri_out _ _ _ _ R e He) as [O1 [O2 O3]].
      assert (e <> a) by congruence. assert (e <> x) by congruence. rewrite F4 by assumption. rewrite !upd_other by congruence. auto.
  - destruct (Hm a Ho) as [Ma Ba]. rewrite (locked_false s a Ma). eexists. split; [reflexivity|].
    split; cbn [with_vis m_g m_vis m_loop m_tmo m_eng m_status].
    + apply (ri_belong _ _ _ _ R).
    + apply (ri_mut _ _ _ _ R).
    + apply (ri_rest _ _ _ _ R).
    + intros e He. destruct (ri_dep _ _ _ _ R e He) as [N I]. split; [exact N|]. intros d. rewrite I, linked_other by discriminate. reflexivity.
    + intros e He. destruct (ri_succ _ _ _ _ R e He) as [N I]. split; [exact N|]. intros d. rewrite I, linked_other by discriminate. reflexivity.
    + intros e He. destruct (ri_vis _ _ _ _ R e He) as [V L]. rewrite shown_snoc, times_snoc. split; [|exact L].
      unfold upd. rewrite (Nat.eqb_sym a e). destruct (Nat.eqb e a); [reflexivity|exact V].
    + intros e He. destruct (ri_out _ _ _ _ R e He) as [O1 [O2 O3]]. rewrite upd_other by congruence. auto.
  - destruct (Hm a Ho) as [Ma Ba]. rewrite (locked_false s a Ma). cbn [orb].
    destruct (ri_rest _ _ _ _ R) as [ET [EE ES]]. rewrite ET.
    exists (if m_tmo s0 a && negb (n =? 1) then s else with_loop s (upd (m_loop s) a n)). split; [destruct (_ && _); reflexivity|].
    assert (EL : forall e, In e ks -> m_loop (if m_tmo s0 a && negb (n =? 1) then s else with_loop s (upd (m_loop s) a n)) e = times (m_tmo s0 e) (done ++ [RTimes a n]) e).
    { intros e He. rewrite times_snoc. destruct (ri_vis _ _ _ _ R e He) as [_ L]. destruct (Nat.eqb_spec a e) as [->|Hne]; cbn [andb].
      - destruct (m_tmo s0 e && negb (n =? 1)); cbn [negb]; [exact L|]. cbn [with_loop m_loop]. apply upd_same.
      - destruct (m_tmo s0 a && negb (n =? 1)); [exact L|]. cbn [with_loop m_loop]. rewrite upd_other by congruence. exact L. }
    assert (EO : forall e, ~ In e ks -> m_loop (if m_tmo s0 a && negb (n =? 1) then s else with_loop s (upd (m_loop s) a n)) e = m_loop s0 e).
    { intros e He. destruct (ri_out _ _ _ _ R e He) as [_ [_ O]]. destruct (_ && _); [exact O|]. cbn [with_loop m_loop]. rewrite upd_other by congruence. exact O. }
    set (s' := if m_tmo s0 a && negb (n =? 1) then s else with_loop s (upd (m_loop s) a n)) in *.
    assert (X : m_g s' = m_g s /\ m_vis s' = m_vis s /\ m_tmo s' = m_tmo s /\ m_eng s' = m_eng s /\ m_status s' = m_status s) by (unfold s'; destruct (_ && _); do 4 (split; [reflexivity|]); reflexivity).
    destruct X as [X1 [X2 [X3 [X4 X5]]]]. split; rewrite ?X1, ?X2, ?X3, ?X4, ?X5.
    + apply (ri_belong _ _ _ _ R).
    + apply (ri_mut _ _ _ _ R).
    + auto.
    + intros e He. destruct (ri_dep _ _ _ _ R e He) as [N I]. split; [exact N|]. intros d. rewrite I, linked_other by discriminate. reflexivity.
    + intros e He. destruct (ri_succ _ _ _ _ R e He) as [N I]. split; [exact N|]. intros d. rewrite I, linked_other by discriminate. reflexivity.
    + intros e He. split; [|apply EL; exact He]. rewrite shown_snoc. apply (ri_vis _ _ _ _ R e He).
    + intros e He. destruct (ri_out _ _ _ _ R e He) as [O1 [O2 _]]. auto.
Qed.

Lemma RI_reshape s0 m ks : children s0 m ks -> forall ops s done, RI s0 s ks done -> Forall (rop_on ks) ops ->
  exists s', reshape s ops = Some s' /\ RI s0 s' ks (done ++ ops).
Proof.
  intros Hk. induction ops as [|o ops IH]; intros s done R Ho; cbn [reshape].
  - exists s. rewrite app_nil_r. auto.
  - inversion Ho; subst. destruct (RI_step s0 s m ks done o Hk R H1) as [s1 [E R1]]. rewrite E.
    destruct (IH s1 _ R1 H2) as [s2 [E2 R2]]. exists s2. rewrite <- app_assoc in R2. auto.
Qed.

Lemma reshape_RI s0 m ks ops : children s0 m ks -> Forall (rop_on ks) ops ->
  exists s1, reshape (mut_setup s0 ks) ops = Some s1 /\ RI s0 s1 ks ops.
Proof. intros Hk Ho. exact (RI_reshape s0 m ks Hk ops _ [] (RI_start s0 ks) Ho). Qed.

(** The graph handed to the engine. *)
Lemma linked_on ks ops d e : Forall (rop_on ks) ops -> linked ops d e -> In d ks /\ In e ks.
Proof.
  intros Ho [_ H]. rewrite Forall_forall in Ho. apply Ho in H. cbn in H. destruct H as [H1 [x [E H2]]]. injection E as ->. auto.
Qed.
Lemma RI_wf s0 s m ks ops : children s0 m ks -> Forall (rop_on ks) ops -> RI s0 s ks ops -> wf (graph_of (m_g s) ks).
Proof.
  intros [Hnd _] Ho R. split; cbn [graph_of els dep succ].
  - exact Hnd.
  - intros e He. destruct (ri_dep _ _ _ _ R e He) as [N I]. split; [exact N|]. intros d Hd. apply I in Hd. apply (linked_on ks ops d e Ho Hd).
  - intros e He. destruct (ri_succ _ _ _ _ R e He) as [N I]. split; [exact N|]. intros d Hd. apply I in Hd. apply (linked_on ks ops e d Ho Hd).
  - intros d e Hd He. rewrite (proj2 (ri_dep _ _ _ _ R e He) d), (proj2 (ri_succ _ _ _ _ R d Hd) e). reflexivity.
Qed.
Lemma RI_edge s0 s ks ops d e : Forall (rop_on ks) ops -> RI s0 s ks ops -> (edge (graph_of (m_g s) ks) d e <-> linked ops d e).
Proof.
  intros Ho R. unfold edge. cbn [graph_of els dep]. split.
  - intros [He Hd]. apply (ri_dep _ _ _ _ R e He). exact Hd.
  - intros H. destruct (linked_on ks ops d e Ho H) as [_ He]. split; [exact He|]. apply (ri_dep _ _ _ _ R e He). exact H.
Qed.
Lemma clos_trans_iff {A} (R R' : A -> A -> Prop) : (forall a b, R a b <-> R' a b) -> forall a b, clos_trans A R a b <-> clos_trans A R' a b.
Proof.
  intros H a b. split; intros X; induction X; try (apply t_step; apply H; assumption); eapply t_trans; eassumption.
Qed.
Lemma RI_acyclic s0 s ks ops : Forall (rop_on ks) ops -> RI s0 s ks ops -> (acyclic (graph_of (m_g s) ks) <-> asks_acyclic ops).
Proof.
  intros Ho R. unfold acyclic, asks_acyclic, path.
  split; intros H e X; apply (H e); revert X; apply clos_trans_iff; intros a b; rewrite (RI_edge s0 s ks ops a b Ho R); reflexivity.
Qed.

(** Bodies. *)
Lemma bodies_ok : forall n res i st, isOK st = true -> (0 <= code (snd (bodies_loop n res i st)))%Z -> fst (bodies_loop n res i st) = n.
Proof.
  induction n as [|n IH]; intros res i st Hs Hc; cbn [bodies_loop] in *; [reflexivity|]. rewrite Hs in *.
  destruct (isOK (st_plus st (res i))) eqn:E.
  - specialize (IH res (S i) _ E). destruct (bodies_loop n res (S i) (st_plus st (res i))) as [k st']. cbn [fst snd] in *. rewrite IH by exact Hc. reflexivity.
  - exfalso. assert (Ec : (code (st_plus st (res i)) < 0)%Z).
    { unfold st_plus in *. destruct (negb (isErr st) && isErr (res i)) eqn:X; [|congruence]. apply andb_true_iff in X. destruct X as [_ X]. apply isErr_code in X. exact X. }
    destruct n as [|n]; cbn [bodies_loop] in Hc; [|rewrite E in Hc]; cbn [snd] in Hc; lia.
Qed.
Lemma bodies_bound : forall n res i st, fst (bodies_loop n res i st) <= n.
Proof.
  induction n as [|n IH]; intros res i st; cbn [bodies_loop]; [apply Nat.le_refl|]. destruct (isOK st); [|cbn; lia].
  specialize (IH res (S i) (st_plus st (res i))). destruct (bodies_loop n res (S i) (st_plus st (res i))) as [k st']. cbn [fst] in *. lia.
Qed.

Lemma body_count_starts s res x : forall tr, body_count s res tr x = count_occ Nat.eq_dec (starts tr) x * fst (child_run s res x).
Proof.
  induction tr as [|ev tr IH]; [reflexivity|]. destruct ev as [e|e r]; cbn [body_count starts flat_map app]; fold (starts tr); [|exact IH].
  rewrite IH. cbn [count_occ]. destruct (Nat.eqb_spec e x) as [->|Hne].
  - destruct (Nat.eq_dec x x); [|congruence]. cbn. reflexivity.
  - destruct (Nat.eq_dec e x); [congruence|]. reflexivity.
Qed.
Lemma starts_in tr e : In (GStart e) tr -> In e (starts tr).
Proof. unfold starts. intros H. apply in_flat_map. exists (GStart e). split; [exact H|left; reflexivity]. Qed.

(** Complete engine runs after a successful setup. *)
Lemma serial_loop_more g res : forall n k cur st x, serial_loop n g res cur st = Some x -> serial_loop (n + k) g res cur st = Some x.
Proof.
  induction n as [|n IH]; intros k cur st x H; [discriminate|]. cbn [Nat.add serial_loop] in *.
  destruct (succ g cur) as [|y l]; [exact H|]. destruct (isErr _); [exact H|].
  destruct (serial_loop n g res y (st_plus st (res cur))) as [[t o]|] eqn:E; [|discriminate]. rewrite (IH k _ _ _ E). exact H.
Qed.
Lemma serial_loop_det g res n k cur st x y : serial_loop n g res cur st = Some x -> serial_loop k g res cur st = Some y -> x = y.
Proof.
  intros H1 H2. apply (serial_loop_more g res n k) in H1. apply (serial_loop_more g res k n) in H2. rewrite Nat.add_comm in H2. congruence.
Qed.
Lemma chain_before g l : is_chain g l -> forall d e, edge g d e -> before l d e.
Proof. intros [_ H] d e He. apply H in He. destruct He as [a [b E]]. exists a, [], b. exact E. Qed.

Lemma mut_exec_trace bind s ks res tr st :
  let g := graph_of (m_g s) ks in
  wf g -> acyclic g -> m_eng s = mkEng ks (fronts g) (analysis_dag_type g bind) ->
  m_status s = st_default \/ (code (m_status s) < 0)%Z ->
  mut_exec bind s ks true res tr st ->
  starts_after_deps g tr /\ starts_once tr /\ incl (starts tr) ks /\ (forall e r, In (GFinish e r) tr -> In e (starts tr)) /\
  (forall e r, In (GFinish e r) tr -> r = snd (child_run s res e)) /\
  ((0 <= code st)%Z -> st = st_default /\ all_ran g tr /\ no_error tr) /\
  ((code st < 0)%Z -> exists e, In (GFinish e st) tr).
Proof.
  intros g Hwf Ha Eg Hp H. destruct H as [fuel tr st T Hs|c ls p st T E1 E2 Hn Hr Ho Hf|c ls d st T _ Ec Eb Hn Hr Ho Hf]; rewrite Eg in *; cbn [en_els en_fronts en_type] in *.
  - set (r := fun e => snd (child_run s res e)) in *.
    destruct (C10_serial_run g bind r (m_status s) Hwf Ha T Hp) as [l [tr0 [out [Hc [Hrun Hcase]]]]].
    assert (E : (tr, st) = (tr0, out)).
    { unfold serial_from in Hs. rewrite Eg in Hs. cbn [en_fronts] in Hs. unfold serial_run in Hrun. fold g in Hs.
      destruct (fronts g) as [|f fs]; [congruence|]. eapply serial_loop_det; eassumption. }
    injection E as -> ->. pose proof Hc as [Hperm _].
    assert (Hnd : NoDup l) by (eapply Permutation_NoDup; [symmetry; exact Hperm|apply Hwf]).
    assert (Hin : incl l (els g)) by (intros x Hx; eapply Permutation_in; eassumption).
    assert (Hfin : forall p, forall e x, In (GFinish e x) (seq_trace r p) -> x = r e).
    { intros p e x Hx. unfold seq_trace in Hx. apply in_flat_map in Hx. destruct Hx as [y [_ [Hx|[Hx|[]]]]]; [discriminate|]. injection Hx as -> ->. reflexivity. }
    assert (Hfs : forall p, forall e x, In (GFinish e x) (seq_trace r p) -> In e (starts (seq_trace r p))).
    { intros p e x Hx. rewrite seq_trace_starts. unfold seq_trace in Hx. apply in_flat_map in Hx. destruct Hx as [y [Hy [Hx|[Hx|[]]]]]; [discriminate|]. injection Hx as -> _. exact Hy. }
    destruct Hcase as [[Hok [Et [Hall Eo]]]|[p [f [q [El [Hok [Hbad [Et Eo]]]]]]]].
    + subst tr0 out. split.
      { eapply (seq_trace_deps g r l Hnd (chain_before g l Hc) Hin l []); [rewrite app_nil_r; reflexivity|].
        intros x y [a [b [z Ey]]]. apply Hok. rewrite Ey. apply in_or_app. right. left. reflexivity. }
      split; [unfold starts_once; rewrite seq_trace_starts; exact Hnd|]. split; [rewrite seq_trace_starts; exact Hin|]. split; [apply Hfs|]. split; [apply Hfin|]. split.
      * intros _. split; [reflexivity|]. split; [exact Hall|]. intros e x Hx. assert (X := Hfin l e x Hx). subst x. apply Hok.
        unfold seq_trace in Hx. apply in_flat_map in Hx. destruct Hx as [y [Hy [Hx|[Hx|[]]]]]; [discriminate|]. injection Hx as -> _. exact Hy.
      * intros X. vm_compute in X. discriminate X.
    + subst tr0 out. assert (Elq : l = (p ++ [f]) ++ q) by (rewrite <- app_assoc; exact El). split.
      { eapply (seq_trace_deps g r l Hnd (chain_before g l Hc) Hin (p ++ [f]) q); [exact Elq|].
        intros x y [a [b [z Ey]]]. apply Hok. assert (X : exists w, p = a ++ x :: w).
        { destruct (@exists_last _ (y :: z) ltac:(discriminate)) as [w [lst Ew]]. exists (b ++ w).
          change (a ++ x :: b ++ y :: z) with (a ++ x :: b ++ (y :: z)) in Ey. rewrite Ew in Ey.
          replace (a ++ x :: b ++ w ++ [lst]) with ((a ++ x :: b ++ w) ++ [lst]) in Ey by (rewrite <- !app_assoc; cbn [app]; rewrite <- !app_assoc; reflexivity).
          apply app_inj_tail in Ey. apply Ey. }
        destruct X as [w ->]. apply in_or_app. right. left. reflexivity. }
      assert (Hsub : forall x, In x (p ++ [f]) -> In x l) by (intros x Hx; rewrite Elq; apply in_or_app; left; exact Hx).
      split; [unfold starts_once; rewrite seq_trace_starts; rewrite Elq in Hnd; apply NoDup_app_iff in Hnd; apply Hnd|].
      split; [rewrite seq_trace_starts; intros x Hx; apply Hin, Hsub, Hx|]. split; [apply Hfs|]. split; [apply Hfin|]. split; [intros X; exfalso; lia|].
      intros _. exists f. unfold seq_trace. apply in_flat_map. exists f. split; [apply in_or_app; right; left; reflexivity|]. right. left. reflexivity.
  - assert (Hc : par_cfg g c) by (split; [exact Hwf|]; split; assumption).
    assert (He : pexec c (LRun :: ls) p).
    { split; [exact Hr|]. cbn [p_disciplined]. split; [intros _ st0 X; discriminate X|]. destruct (pstep c p_init LRun); [|exact I]. apply p_disciplined_one. exact Hn. }
    destruct (C10_parallel_run g c _ p Hc He) as [R1 [R2 [R3 R4]]].
    destruct (C10_parallel_only_independent g bind Hwf T) as [_ Hind]. split.
    { intros t1 e t2 Et x Hx. exfalso. apply (Hind x e). split; [|exact Hx]. apply R2. rewrite Et. apply starts_in, in_or_app. right. left. reflexivity. }
    split; [exact R1|]. split; [exact R2|]. split.
    { intros e r He0. destruct (p_inv_trace c p (pexec_inv g c _ p Hc He)) as [X|X]; [rewrite X in He0; destruct He0|]. apply cnt_in. pose proof (q_body _ _ _ _ _ X e).
      assert (0 < cnt e (map fst (finishes (p_tr p)))) by (apply cnt_in, in_map_iff; exists (e, r); split; [reflexivity|apply in_finishes; exact He0]). lia. }
    split; [exact Hf|]. split; [|apply R4; exact Ho].
    intros Hst. destruct (R3 st Ho Hst) as [A1 [A2 [A3 _]]]. auto.
  - assert (He : exec c (LRun :: ls) d).
    { split; [exact Hr|]. eapply disciplined_one_run; eassumption. }
    fold g in Ec. rewrite <- Ec in *.
    destruct (C06_starts_after_deps c _ d Hwf Ha He) as [R1 [R2 R3]].
    split; [exact R1|]. split; [exact R2|]. split; [rewrite Ec in R3; exact R3|]. split.
    { intros e r He0. destruct (inv_trace c d (exec_inv c _ d Hwf Ha He)) as [X|X]; [unfold trace in X; rewrite X in He0; destruct He0|]. apply cnt_in. pose proof (r_body c _ _ X e).
      assert (0 < cnt e (map fst (finishes (sh_tr (d_sh d))))) by (apply cnt_in, in_map_iff; exists (e, r); split; [reflexivity|apply in_finishes; exact He0]). lia. }
    split; [exact Hf|]. split.
    + intros Hst. destruct (C07_ok_means_all_ran_once c _ d st Hwf Ha He Ho Hst) as [A1 [A2 [A3 _]]]. auto.
    + intros Hst. apply (C09_error_reported c _ d Hwf Ha He) in Ho; auto.
Qed.
