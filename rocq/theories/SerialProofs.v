(** Serial runs: chains, and the tree. *)
From Verif Require Import GraphModel GraphSpec TopoProofs StaticModel StaticProofs StatusProofs EngineSeqProofs DynModel DynInv FastModel FastProofs GraphProps SerialModel SerialSpec.
From Coq Require Import Lia.
Local Open Scope nat_scope.
Local Open Scope list_scope.

Lemma filter_count {A} (f : A -> bool) l : length (filter f l) + length (filter (fun x => negb (f x)) l) = length l.
Proof. induction l as [|x l IH]; [reflexivity|]. cbn. destruct (f x); cbn; lia. Qed.
Lemma filter_map_len {A B} (g : A -> B) f l : length (filter f (map g l)) = length (filter (fun x => f (g x)) l).
Proof. induction l as [|x l IH]; [reflexivity|]. cbn. destruct (f (g x)); cbn; lia. Qed.
Lemma filter_ext_len {A} (f g : A -> bool) l : (forall x, In x l -> f x = g x) -> length (filter f l) = length (filter g l).
Proof. intros H. f_equal. apply filter_ext_in. exact H. Qed.

Section P.
Variable v : env.

(** What checkSerializable says of one level. *)
Lemma check_ser_inv f d cs : check_ser v f d cs = true -> d = true /\
  (forall c, In c cs -> f c = true /\ length (n_succ v (idof c)) <= 1 /\ length (n_dep v (idof c)) <= 1 /\ n_async v (idof c) = false) /\
  length (fronts (level v cs)) = 1 /\ length (ends (level v cs)) = 1.
Proof.
  unfold check_ser. intros H. apply andb_prop in H. destruct H as [H H4]. apply andb_prop in H. destruct H as [H H3]. apply andb_prop in H. destruct H as [H1 H2].
  split; [exact H1|]. split; [|split].
  - intros c Hc. rewrite forallb_forall in H2. specialize (H2 c Hc). apply andb_prop in H2. destruct H2 as [H2 Ha]. apply andb_prop in H2. destruct H2 as [H2 Hd]. apply andb_prop in H2. destruct H2 as [Hf Hs].
    apply negb_true_iff in Ha, Hd, Hs. apply Nat.ltb_ge in Hd, Hs. auto.
  - apply Nat.eqb_eq in H3. unfold fronts. cbn [level els dep]. rewrite filter_map_len. exact H3.
  - apply Nat.eqb_eq in H4. unfold ends. cbn [level els succ]. rewrite filter_map_len. exact H4.
Qed.

Section L.
Variable cs : list elt.
Let g := level v cs.
Hypothesis Hok : level_ok v cs.
Hypothesis Hdeg : forall c, In c cs -> length (n_succ v (idof c)) <= 1 /\ length (n_dep v (idof c)) <= 1.
Hypothesis Hfr : length (fronts g) = 1.
Hypothesis Hen : length (ends g) = 1.

Lemma in_level x : In x (els g) -> exists c, In c cs /\ idof c = x.
Proof. cbn [g level els]. intros H. apply in_map_iff in H. destruct H as [c [H1 H2]]. eauto. Qed.
Lemma single_succ x : In x (els g) -> succ g x = [] \/ exists y, succ g x = [y] /\ length (dep g y) = 1.
Proof.
  intros Hx. destruct (in_level x Hx) as [c [Hc <-]]. destruct (Hdeg c Hc) as [H1 _].
  destruct (succ g (idof c)) as [|y [|z l]] eqn:Es; [left; reflexivity| |cbn [g level succ] in Es; rewrite Es in H1; cbn in H1; lia].
  right. exists y. split; [reflexivity|]. destruct Hok as [Hw _]. fold g in Hw.
  assert (Hy : In y (els g)) by (apply (wf_succ g Hw (idof c) Hx); rewrite Es; left; reflexivity).
  assert (Hd : In (idof c) (dep g y)) by (apply (wf_sym g Hw); auto; rewrite Es; left; reflexivity).
  destruct (in_level y Hy) as [cy [Hcy <-]]. destruct (Hdeg cy Hcy) as [_ H2]. cbn [g level dep] in *. destruct (n_dep v (idof cy)); [destruct Hd|cbn in *; lia].
Qed.
Lemma linked_all bind : (forall x y, In x (els g) -> In y (els g) -> bind x = bind y) -> length (els g) - 1 = linked_size g bind.
Proof.
  intros Hb. unfold linked_size. pose proof (filter_count (fun e => is_nil (succ g e)) (els g)) as K.
  change (length (filter (fun e => is_nil (succ g e)) (els g))) with (length (ends g)) in K. rewrite Hen in K.
  rewrite (filter_ext_len _ (fun e => negb (is_nil (succ g e)))); [lia|]. intros x Hx.
  change (match calc_shape g bind x with ShLinkable => true | _ => false end) with (linkable g bind x).
  destruct (single_succ x Hx) as [E|[y [E D]]].
  - rewrite E. cbn. destruct (linkable g bind x) eqn:Q; [|reflexivity]. apply linkable_spec in Q. destruct Q as [z [Q _]]. rewrite E in Q. discriminate.
  - rewrite E. cbn. apply linkable_spec. exists y. split; [exact E|]. split; [exact D|]. apply Hb; [exact Hx|].
    destruct Hok as [Hw _]. fold g in Hw. apply (wf_succ g Hw x Hx). rewrite E. left; reflexivity.
Qed.
(** The level is a chain, and the elements come in the order of the walk along the successors. *)
Lemma level_chain : exists f L, fronts g = [f] /\ L = walk g (length (els g)) f /\ is_chain g L /\ NoDup L /\
  (forall a d b, L = a ++ d :: b -> match b with e :: _ => succ g d = [e] /\ length (dep g e) = 1 | [] => succ g d = [] end).
Proof.
  destruct Hok as [Hw Ha]. fold g in Hw, Ha.
  assert (Hne : els g <> []) by (intros K; unfold fronts in Hfr; rewrite K in Hfr; discriminate).
  destruct (serial_is_chain g (fun _ => (-1)%Z) Hw Ha Hne Hfr) as [f [E [C N]]].
  { apply linked_all. reflexivity. }
  exists f, (walk g (length (els g)) f). split; [exact E|]. split; [reflexivity|]. split; [exact C|].
  split. { apply (Permutation_NoDup (Permutation_sym (proj1 C)) (wf_els g Hw)). }
  intros a d b Hs. pose proof (N a d b Hs) as K. destruct b as [|e b]; [exact K|]. split; [exact K|].
  assert (Hd : In d (els g)) by (apply (Permutation_in _ (proj1 C)); rewrite Hs; apply in_or_app; right; left; reflexivity).
  destruct (single_succ d Hd) as [Q|[y [Q D]]]; rewrite Q in K; [discriminate|]. injection K as ->. exact D.
Qed.
End L.

(** Along a chain, the loop is the sequence. *)
Lemma serial_walk_seq run : forall b x n, length b < n ->
  (forall a d c, x :: b = a ++ d :: c -> match c with e :: _ => n_succ v d = [e] | [] => n_succ v d = [] end) ->
  serial_walk v n run x = one_by_one (map run (x :: b)).
Proof.
  induction b as [|y b IH]; intros x n Hn Hc; destruct n as [|n]; cbn [length] in Hn; try lia; cbn [serial_walk map one_by_one].
  - destruct (run x) as [tr r] eqn:E. pose proof (Hc [] x [] eq_refl) as K. cbn in K. rewrite K. destruct r; try reflexivity. rewrite app_nil_r. reflexivity.
  - destruct (run x) as [tr r] eqn:E. pose proof (Hc [] x (y :: b) eq_refl) as K. cbn in K. rewrite K. destruct r; try reflexivity.
    rewrite (IH y n) by (try lia; intros a d c Hs; apply (Hc (x :: a) d c); rewrite Hs; reflexivity). reflexivity.
Qed.

Lemma one_by_one_spec (run : elt -> list sev -> bool -> Prop) (f : elt -> outc) : forall l, (forall c, In c l -> exists tr b, f c = (tr, of_bool b) /\ run c tr b) ->
  exists tr b, one_by_one (map f l) = (tr, of_bool b) /\ in_order run l tr b.
Proof.
  induction l as [|c l IH]; intros H.
  - exists [], true. split; [reflexivity|constructor].
  - destruct (H c (or_introl eq_refl)) as [tr [b [E R]]]. destruct (IH (fun c' Hc => H c' (or_intror Hc))) as [tr' [b' [E' R']]].
    cbn [map one_by_one]. rewrite E. destruct b; cbn [of_bool].
    + rewrite E'. exists (tr ++ tr'), b'. split; [reflexivity|constructor; assumption].
    + exists tr, false. split; [reflexivity|apply io_fail; exact R].
Qed.
Lemma run_of_map (f : elt -> outc) cs c : NoDup (map idof cs) -> In c cs -> run_of (map (fun c => (idof c, f c)) cs) (idof c) = f c.
Proof.
  unfold run_of. induction cs as [|d cs IH]; intros Hn Hc; [destruct Hc|]. cbn [map find fst]. inversion Hn as [|? ? N1 N2]; subst.
  destruct Hc as [->|Hc]; [rewrite Nat.eqb_refl; reflexivity|]. destruct (Nat.eqb_spec (idof d) (idof c)) as [E|_]; [exfalso; apply N1; rewrite E; apply in_map; exact Hc|].
  apply IH; assumption.
Qed.

(** The order of the walk, as elements. *)
Lemma chain_dep_order cs o : NoDup (map idof cs) -> is_chain (level v cs) (map idof o) -> Permutation o cs -> dep_order v cs o.
Proof.
  intros Hn [HP HC] Hp. split; [exact Hp|]. intros d e Hd He Hde.
  assert (Hed : edge (level v cs) (idof d) (idof e)) by (split; [apply in_map; exact He|exact Hde]).
  apply HC in Hed. destruct Hed as [a [b Hs]].
  assert (Hn' : NoDup (map idof o)) by (apply (Permutation_NoDup (Permutation_sym HP)); exact Hn).
  assert (Inj : forall x y, In x cs -> In y cs -> idof x = idof y -> x = y).
  { clear - Hn. induction cs as [|c cs IH]; intros x y Hx Hy E; [destruct Hx|]. inversion Hn as [|? ? N1 N2]; subst.
    destruct Hx as [->|Hx], Hy as [->|Hy]; auto; exfalso; apply N1; [rewrite E|rewrite <- E]; apply in_map; assumption. }
  assert (Hx : exists o1 x o2, o = o1 ++ x /\ map idof o1 = a /\ x = o2).
  { exists (firstn (length a) o), (skipn (length a) o), (skipn (length a) o). split; [symmetry; apply firstn_skipn|]. split; [|reflexivity].
    rewrite <- firstn_map, Hs. rewrite firstn_app, Nat.sub_diag, firstn_all. cbn. apply app_nil_r. }
  destruct Hx as [o1 [x [_ [Eo [Ea _]]]]]. rewrite Eo, map_app, Ea in Hs. apply app_inv_head in Hs.
  destruct x as [|d' [|e' x]]; try discriminate. cbn in Hs. injection Hs as E1 E2 _.
  assert (In d' cs /\ In e' cs) as [Hd' He'] by (split; apply (Permutation_in _ Hp); rewrite Eo; apply in_or_app; right; [left|right; left]; reflexivity).
  rewrite (Inj d' d Hd' Hd E1), (Inj e' e He' He E2) in Eo. exists o1, [], x. exact Eo.
Qed.

(** A level with one binding is executed as its chain. *)
Lemma engine_uniform (run : elt -> list sev -> bool -> Prop) (f : elt -> outc) d cs fs : level_ok v cs -> one_binding v cs -> check_ser v fs d cs = true ->
  (forall c, In c cs -> exists tr b, f c = (tr, of_bool b) /\ run c tr b) ->
  exists o tr b, engine v cs (map (fun c => (idof c, f c)) cs) = (tr, of_bool b) /\ dep_order v cs o /\ in_order run o tr b.
Proof.
  intros Hok Hb Hc Hf. destruct (check_ser_inv _ _ _ Hc) as [_ [H1 [H2 H3]]].
  assert (Hdeg : forall c, In c cs -> length (n_succ v (idof c)) <= 1 /\ length (n_dep v (idof c)) <= 1) by (intros c Hin; destruct (H1 c Hin) as [_ [? [? _]]]; auto).
  destruct (level_chain cs Hok Hdeg H2 H3) as [x [L [EF [EL [C [N S]]]]]]. pose proof Hok as [Hw Ha]. set (g := level v cs) in *.
  assert (HN : NoDup (map idof cs)) by exact (wf_els g Hw).
  destruct (Permutation_map_inv idof _ (proj1 C : Permutation L (map idof cs))) as [o [Eo Po]].
  unfold engine. fold g. rewrite (proj1 (isDag_spec g Hw) Ha).
  assert (EA : analysis_dag_type g (n_bind v) = AllSerial).
  { unfold analysis_dag_type. rewrite H2. rewrite <- (linked_all cs Hok Hdeg H2 H3).
    - rewrite !Nat.eqb_refl. rewrite orb_true_r. reflexivity.
    - intros a b Hina Hinb. destruct (in_level cs a Hina) as [ca [? <-]]. destruct (in_level cs b Hinb) as [cb [? <-]]. apply Hb; assumption. }
  rewrite EA, EF.
  assert (HL : exists b, L = x :: b /\ length b < length (els g)).
  { destruct (walk_head g (length (els g)) x) as [b Hb']. exists b. rewrite EL. split; [exact Hb'|]. pose proof (Permutation_length (proj1 C)) as K. rewrite EL, Hb' in K. cbn [length] in K. lia. }
  destruct HL as [b [HL Hlen]].
  rewrite (serial_walk_seq _ b x (length (els g)) Hlen).
  2: { intros a e c Hs. rewrite <- HL in Hs. pose proof (S a e c Hs) as K. destruct c; [exact K|exact (proj1 K)]. }
  rewrite <- HL, Eo, map_map.
  assert (EM : map (fun c => run_of (map (fun c => (idof c, f c)) cs) (idof c)) o = map f o).
  { apply map_ext_in. intros c Hin. apply run_of_map; [exact HN|]. apply (Permutation_in _ (Permutation_sym Po)); exact Hin. }
  rewrite EM. destruct (one_by_one_spec run f o) as [tr [bb [E1 E2]]].
  { intros c Hin. apply Hf. apply (Permutation_in _ (Permutation_sym Po)); exact Hin. }
  exists o, tr, bb. split; [exact E1|]. split; [|exact E2]. apply chain_dep_order; [exact HN|rewrite <- Eo; exact C|apply Permutation_sym; exact Po].
Qed.

Lemma wrapped_val i tr b : wrapped i (tr, of_bool b) = (SStart i :: tr ++ [SEnd i b], of_bool b).
Proof. destruct b; reflexivity. Qed.
Lemma chosen_map {A B} (f : A -> B) z l : chosen z (map f l) = option_map f (chosen z l).
Proof.
  unfold chosen. rewrite map_length.
  assert (E : is_nil (map f l) = is_nil l) by (destruct l; reflexivity). rewrite E.
  destruct (Z.eqb z (-1) && negb (is_nil l)); [|destruct ((0 <=? z)%Z && (z <? Z.of_nat (length l))%Z)].
  - apply nth_error_map.
  - apply nth_error_map.
  - reflexivity.
Qed.
Lemma chosen_in {A} z (l : list A) c : chosen z l = Some c -> In c l.
Proof.
  unfold chosen. destruct (Z.eqb z (-1) && negb (is_nil l)); [apply nth_error_In|]. destruct ((0 <=? z)%Z && (z <? Z.of_nat (length l))%Z); [apply nth_error_In|discriminate].
Qed.

Lemma chosen_picks {A} z (l : list A) c : chosen z l = Some c <-> picks z l c.
Proof.
  unfold chosen. split.
  - destruct (Z.eqb_spec z (-1)) as [->|N]; cbn [andb].
    + destruct l as [|x l] using rev_ind; [discriminate|]. rewrite app_length. cbn [length]. replace (is_nil (l ++ [x])) with false by now destruct l. cbn [negb]. replace (length l + 1 - 1) with (length l) by lia.
      rewrite nth_error_app2, Nat.sub_diag by lia. intros [= <-]. constructor.
    + destruct (Z.leb_spec 0 z); cbn [andb]; [|discriminate]. destruct (z <? Z.of_nat (length l))%Z; [|discriminate]. intros E. rewrite <- (Z2Nat.id z) by lia. now constructor.
  - intros H. destruct H as [l c|n l c E].
    + cbn [Z.eqb andb Pos.eqb]. replace (is_nil (l ++ [c])) with false by now destruct l. cbn [negb]. rewrite app_length. cbn [length]. replace (length l + 1 - 1) with (length l) by lia. rewrite nth_error_app2, Nat.sub_diag by lia. reflexivity.
    + destruct (Z.eqb_spec (Z.of_nat n) (-1)) as [Q|_]; [lia|]. cbn [andb]. assert (n < length l) by (apply nth_error_Some; now rewrite E).
      destruct (Z.leb_spec 0 (Z.of_nat n)); [|lia]. destruct (Z.ltb_spec (Z.of_nat n) (Z.of_nat (length l))); [|lia]. cbn [andb]. now rewrite Nat2Z.id.
Qed.

(** Every serializable element without timeouts, parallel multi conditions and mixed bindings runs on the thread. *)
Lemma exec_on_thread t : everywhere (fun t => plain v t /\ region_ok v t) t -> is_ser v t = true -> exists tr b, exec v t = (tr, of_bool b) /\ on_thread v t tr b.
Proof.
  induction 1 as [t [[Has Hpl] Hreg] Hk IH]. intros Hser. destruct t as [i k cs]. cbn [idof kidsof] in *. cbn [exec]. rewrite Has.
  destruct k as [| | | | | |dyn]; cbn [is_ser] in Hser.
  - exists [SStart i; SEnd i (n_ok v i)], (n_ok v i). rewrite wrapped_val. split; [reflexivity|constructor].
  - rewrite forallb_forall in Hser. destruct (one_by_one_spec (on_thread v) (exec v) cs) as [tr [b [E1 E2]]]; [intros c Hc; apply IH; auto|].
    rewrite E1, wrapped_val. eexists; eexists; split; [reflexivity|]. constructor; exact E2.
  - rewrite forallb_forall in Hser. rewrite chosen_map. destruct (chosen (n_choice v i) cs) as [c|] eqn:E; cbn [option_map].
    + pose proof (chosen_in _ _ _ E) as Hc. destruct (IH c Hc (Hser c Hc)) as [tr [b [E1 E2]]]. rewrite E1, wrapped_val. eexists; eexists; split; [reflexivity|]. eapply ot_chosen; [apply chosen_picks|]; eassumption.
    + eexists; exists true; split; [reflexivity|]. constructor. intros c Q. apply chosen_picks in Q. congruence.
  - rewrite forallb_forall in Hser.
    assert (EM : map snd (filter (fun p => n_match v (fst p)) (map (fun c => (idof c, exec v c)) cs)) = map (exec v) (filter (fun c => n_match v (idof c)) cs)).
    { clear. induction cs as [|c cs IH]; [reflexivity|]. cbn [map filter fst]. destruct (n_match v (idof c)); cbn [map snd]; rewrite IH; reflexivity. }
    rewrite EM. destruct (one_by_one_spec (on_thread v) (exec v) (filter (fun c => n_match v (idof c)) cs)) as [tr [b [E1 E2]]]; [intros c Hc; apply filter_In in Hc; apply IH; [apply Hc|apply Hser, Hc]|].
    rewrite E1, wrapped_val. eexists; eexists; split; [reflexivity|]. constructor; exact E2.
  - destruct Hpl.
  - discriminate.
  - destruct (check_ser_inv _ _ _ Hser) as [-> [H1 _]].
    destruct (engine_uniform (on_thread v) (exec v) true cs (is_ser v) Hreg Hpl Hser) as [o [tr [b [E1 [E2 E3]]]]]; [intros c Hc; apply IH; [exact Hc|apply H1; exact Hc]|].
    rewrite E1, wrapped_val. eexists; eexists; split; [reflexivity|]. eapply ot_region; eassumption.
Qed.
End P.
