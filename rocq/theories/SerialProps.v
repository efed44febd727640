(** C49: makeSerial. *)
From Verif Require Import GraphModel GraphSpec TopoProofs StaticModel StaticProofs StatusProofs EngineSeqProofs DynModel DynInv FastModel FastProofs GraphProps SerialModel SerialSpec SerialProofs.
From Coq Require Import Lia.
Local Open Scope nat_scope.
Local Open Scope list_scope.

(** C49, proved part: if makeSerial succeeds, no element at any depth has a timeout, there is no parallel multi condition, and the elements of each level (the pipeline's own, and of each region)
    have the same binding, then the run executes the elements of every level on the calling thread, one after the other, in an order in which each follows its dependencies, until one fails;
    nothing is handed to the pool ([on_thread] and [in_order] contain no such event) and the thread never waits. *)
Theorem C49_serial_partial : forall v unique dynamic cs, level_ok v cs -> one_binding v cs -> (forall t, In t cs -> everywhere (fun t => plain v t /\ region_ok v t) t) ->
  make_serial v unique dynamic cs = true ->
  exists o tr (b : bool), run_pipeline v cs = (tr, if b then ROk else RErr) /\ dep_order v cs o /\ in_order (on_thread v) o tr b.
Proof.
  intros v unique dynamic cs Hok Hb Hev Hs. unfold make_serial in Hs. apply andb_prop in Hs. destruct Hs as [_ Hs].
  destruct (check_ser_inv v _ _ _ Hs) as [_ [H1 _]].
  exact (engine_uniform v (on_thread v) (exec v) dynamic cs (is_ser v) Hok Hb Hs (fun c Hc => exec_on_thread v c (Hev c Hc) (proj1 (H1 c Hc)))).
Qed.
(** If nothing fails, every element of the pipeline was executed: each of them has its turn in the sequence. *)
Lemma in_order_all run : forall l tr, in_order run l tr true -> forall c, In c l -> exists a t b, tr = a ++ t ++ b /\ run c t true.
Proof.
  intros l tr H. assert (G : forall l tr b, in_order run l tr b -> b = true -> forall c, In c l -> exists a t b, tr = a ++ t ++ b /\ run c t true); [|exact (G l tr true H eq_refl)].
  clear. intros l tr b H. induction H as [|c l tr tr' b Hc Hl IH|c l tr Hc]; intros Eb; [intros c []| |discriminate].
  intros x [<-|Hx]; [exists [], tr, tr'; split; [reflexivity|exact Hc]|]. destruct (IH Eb x Hx) as [a [t [b' [-> R]]]]. exists (tr ++ a), t, b'. rewrite <- app_assoc. split; [reflexivity|exact R].
Qed.
Theorem C49_all_run_partial : forall v unique dynamic cs, level_ok v cs -> one_binding v cs -> (forall t, In t cs -> everywhere (fun t => plain v t /\ region_ok v t) t) ->
  make_serial v unique dynamic cs = true -> forall tr, run_pipeline v cs = (tr, ROk) -> forall c, In c cs -> exists a t b, tr = a ++ t ++ b /\ on_thread v c t true.
Proof.
  intros v u d cs H1 H2 H3 H4 tr E c Hc. destruct (C49_serial_partial v u d cs H1 H2 H3 H4) as [o [tr' [b [E' [[P _] I]]]]]. rewrite E in E'. injection E' as <- Eb. destruct b; [|discriminate].
  apply (in_order_all _ _ _ I). apply (Permutation_in _ (Permutation_sym P)); exact Hc.
Qed.

(** What makeSerial refuses: a pipeline without its own pool or with another engine, and, anywhere inside it, groups that need threads: a parallel multi condition with two or more children,
    some / mutable groups, a region with another engine or whose elements are no chain, and a timeout on an element of a region or of the pipeline. *)
Definition accepted (v : env) (t : elt) : Prop :=
  match t with
  | E _ KMultiP cs => length cs <= 1
  | E _ KOther _ => False
  | E _ (KRegion d) cs => d = true /\ (forall c, In c cs -> length (n_succ v (idof c)) <= 1 /\ length (n_dep v (idof c)) <= 1 /\ n_async v (idof c) = false)
  | _ => True
  end.
Definition node_leaf (t : elt) : Prop := match t with E _ KNode cs => cs = [] | _ => True end.
Theorem C49_refused_partial : forall v unique dynamic cs, (forall t, In t cs -> everywhere node_leaf t) -> make_serial v unique dynamic cs = true ->
  unique = true /\ dynamic = true /\
  forall t, In t cs -> n_async v (idof t) = false /\ length (n_succ v (idof t)) <= 1 /\ length (n_dep v (idof t)) <= 1 /\ everywhere (accepted v) t.
Proof.
  intros v u d cs Hl Hs. unfold make_serial in Hs. apply andb_prop in Hs. destruct Hs as [Hu Hs].
  destruct (check_ser_inv v _ _ _ Hs) as [Hd [H1 _]]. split; [exact Hu|]. split; [exact Hd|].
  assert (G : forall t, everywhere node_leaf t -> is_ser v t = true -> everywhere (accepted v) t).
  { intros t Ht. induction Ht as [[i k l] Hn Hk IH]. cbn [kidsof] in *. intros Hser. destruct k; cbn [is_ser] in Hser.
    - constructor; [exact I|]. cbn in Hn. subst l. intros c [].
    - constructor; [exact I|]. rewrite forallb_forall in Hser. intros c Hc. exact (IH c Hc (Hser c Hc)).
    - constructor; [exact I|]. rewrite forallb_forall in Hser. intros c Hc. exact (IH c Hc (Hser c Hc)).
    - constructor; [exact I|]. rewrite forallb_forall in Hser. intros c Hc. exact (IH c Hc (Hser c Hc)).
    - destruct (Nat.ltb_spec 1 (length l)) as [|Hle]; [discriminate|]. constructor; [exact Hle|]. rewrite forallb_forall in Hser. intros c Hc. exact (IH c Hc (Hser c Hc)).
    - discriminate.
    - destruct (check_ser_inv v _ _ _ Hser) as [Hd' [H1' _]]. constructor; [split; [exact Hd'|]; intros c Hc; destruct (H1' c Hc) as [_ ?]; tauto|].
      intros c Hc. exact (IH c Hc (proj1 (H1' c Hc))). }
  intros t Ht. destruct (H1 t Ht) as [A [B [C D]]]. split; [exact D|]. split; [exact B|]. split; [exact C|]. exact (G t (Hl t Ht) A).
Qed.

(** * Where it is false *)
Lemma proc_chain v g run : (forall x, In x (els g) -> snd (run x) = ROk) -> forall b x n s, length b < n -> incl (x :: b) (els g) ->
  (forall a d c, x :: b = a ++ d :: c -> match c with e :: _ => succ g d = [e] /\ length (dep g e) = 1 | [] => succ g d = [] end) ->
  c_stop s = None -> (exists y, In y (x :: b) /\ n_bind v y <> (-1)%Z) ->
  let s' := proc v n run g x true s in c_stop s' = None /\ c_fin s' = c_fin s /\ exists y, In (SPool y) (c_tr s').
Proof.
  intros Hrun. induction b as [|z b IH]; intros x n s Hn Hi Hc Hs Hy; (destruct n as [|n]; [cbn in Hn; lia|]); cbn [proc]; rewrite Hs; cbn [andb].
  - destruct Hy as [y [[<-|[]] Hy]]. destruct (Z.eqb_spec (n_bind v x) (-1)); [contradiction|]. cbn. split; [reflexivity|]. split; [reflexivity|]. exists x. apply in_or_app; right; left; reflexivity.
  - destruct (Z.eqb_spec (n_bind v x) (-1)) as [Ex|Ex].
    2: { cbn. split; [reflexivity|]. split; [reflexivity|]. exists x. apply in_or_app; right; left; reflexivity. }
    destruct (run x) as [tr r] eqn:Er. pose proof (Hrun x (Hi x (or_introl eq_refl))) as K. rewrite Er in K. cbn in K. subst r.
    destruct (Hc [] x (z :: b) eq_refl) as [Sx Dz].
    assert (Hy' : exists y, In y (z :: b) /\ n_bind v y <> (-1)%Z) by (destruct Hy as [y [[<-|H] Hb]]; [contradiction|eauto]).
    set (s1 := mkCst _ _ _ _). specialize (IH z n s1 ltac:(cbn in Hn |- *; lia) (fun y Hy0 => Hi y (or_intror Hy0)) (fun a d c E => Hc (x :: a) d c ltac:(cbn; f_equal; exact E)) eq_refl Hy').
    assert (Esh : calc_shape g (n_bind v) x = ShLinkable \/ calc_shape g (n_bind v) x = ShRoot).
    { unfold calc_shape. rewrite Sx, Dz. cbn [Nat.eqb andb]. destruct (Z.eqb (n_bind v x) (n_bind v z)); [left; reflexivity|]. right. cbn [is_nil negb forallb andb]. rewrite Dz. reflexivity. }
    destruct Esh as [->| ->]; rewrite Sx; cbn [fold_left last]; rewrite ?Nat.eqb_refl; exact IH.
Qed.
Lemma one_left {A} (p : A -> bool) (l : list A) t x : NoDup l -> In t l -> In x l -> p t = false -> length (filter p l) = length l - 1 -> x <> t -> p x = true.
Proof.
  intros Hn Ht Hx Hp Hl Hne. destruct (p x) eqn:E; [reflexivity|exfalso]. pose proof (filter_count p l) as K.
  assert (2 <= length (filter (fun x => negb (p x)) l)).
  { change 2 with (length [x; t]). apply NoDup_incl_length; [repeat constructor; cbn; intuition|]. intros y [<-|[<-|[]]]; apply filter_In; split; auto; [rewrite E|rewrite Hp]; reflexivity. }
  assert (length l > 0) by (destruct l; [destruct Ht|cbn; lia]). lia.
Qed.
Lemma same_along (f : nat -> Z) : forall l, (forall a d e b, l = a ++ d :: e :: b -> f d = f e) -> forall x y, In x l -> In y l -> f x = f y.
Proof.
  induction l as [|z l IH]; intros H x y Hx Hy; [destruct Hx|].
  assert (IH' : forall x y, In x l -> In y l -> f x = f y) by (apply IH; intros a d e b E; apply (H (z :: a) d e b); rewrite E; reflexivity).
  assert (Hz : forall w, In w l -> f z = f w).
  { intros w Hw. destruct l as [|z' l]; [destruct Hw|]. rewrite (H [] z z' l eq_refl). apply IH'; [left; reflexivity|exact Hw]. }
  destruct Hx as [<-|Hx], Hy as [<-|Hy]; auto. symmetry; auto.
Qed.

(** Whenever makeSerial succeeds and two of the pipeline's own elements have different bindings, a run in which no element fails hands an element to the pool, which has no thread, and waits for it for ever.
    Regions are constructed with a binding different from that of nodes: a node and a region suffice. *)
Theorem C49_mixed_bindings_refuted : forall v unique dynamic cs, level_ok v cs -> make_serial v unique dynamic cs = true -> ~ one_binding v cs ->
  (forall c, In c cs -> snd (exec v c) = ROk) ->
  snd (run_pipeline v cs) = RStuck /\ exists e, In (SPool e) (fst (run_pipeline v cs)).
Proof.
  intros v u d cs Hok Hs Hb Hrun. unfold make_serial in Hs. apply andb_prop in Hs. destruct Hs as [_ Hs].
  destruct (check_ser_inv v _ _ _ Hs) as [_ [H1 [H2 H3]]].
  assert (Hdeg : forall c, In c cs -> length (n_succ v (idof c)) <= 1 /\ length (n_dep v (idof c)) <= 1) by (intros c Hin; destruct (H1 c Hin) as [_ [? [? _]]]; auto).
  destruct (level_chain v cs Hok Hdeg H2 H3) as [f [L [EF [EL [C [N S]]]]]]. pose proof Hok as [Hw Ha].
  unfold run_pipeline, engine. rewrite (proj1 (isDag_spec (level v cs) Hw) Ha).
  set (g := level v cs) in *.
  assert (HN : NoDup (map idof cs)) by exact (wf_els g Hw).
  assert (HLi : forall x, In x L <-> In x (els g)) by (intros x; split; [apply (Permutation_in _ (proj1 C))|apply (Permutation_in _ (Permutation_sym (proj1 C)))]).
  assert (HLb : ~ forall x y, In x L -> In y L -> n_bind v x = n_bind v y).
  { intros K. apply Hb. intros c e Hc He. apply K; apply HLi; apply in_map; assumption. }
  assert (Hadj : ~ forall a x y b, L = a ++ x :: y :: b -> n_bind v x = n_bind v y) by (intros K; apply HLb; apply same_along; exact K).
  destruct (@exists_last _ L) as [la [t ELt]]; [intros K; assert (In f L) by (apply HLi; assert (In f (fronts g)) as F by (rewrite EF; left; reflexivity); unfold fronts in F; apply filter_In in F; apply F); rewrite K in H; destruct H|].
  assert (Ht : succ g t = []) by exact (S la t [] ELt).
  assert (EA : analysis_dag_type g (n_bind v) = Common).
  { unfold analysis_dag_type. rewrite H2. assert (Hne : is_nil (els g) = false) by (destruct (els g) eqn:Q; [unfold fronts in H2; rewrite Q in H2; discriminate|reflexivity]). rewrite Hne. cbn [orb].
    destruct (Nat.eqb_spec (length (els g) - 1) (linked_size g (n_bind v))) as [K|K].
    - exfalso. apply Hadj. intros a x y b E.
      assert (Hx : linkable g (n_bind v) x = true).
      { apply (one_left (linkable g (n_bind v)) (els g) t x); [exact (wf_els g Hw)|apply HLi; rewrite ELt; apply in_or_app; right; left; reflexivity|apply HLi; rewrite E; apply in_or_app; right; left; reflexivity| |symmetry; exact K|].
        - destruct (linkable g (n_bind v) t) eqn:Q; [|reflexivity]. apply linkable_spec in Q. destruct Q as [z [Q _]]. rewrite Ht in Q. discriminate.
        - intros ->. pose proof (S a t (y :: b) E) as [Q _]. rewrite Ht in Q. discriminate. }
      apply linkable_spec in Hx. destruct Hx as [z [E1 [_ E2]]]. pose proof (S a x (y :: b) E) as [Q _]. rewrite Q in E1. injection E1 as ->. exact E2.
    - cbn [andb]. rewrite H3. destruct (Nat.eqb_spec (length (els g)) 1) as [Q|Q]; cbn [andb]; [|reflexivity]. exfalso. apply HLb. intros x y Hx Hy. apply HLi in Hx, Hy.
      destruct (els g) as [|z [|? ?]]; try discriminate. destruct Hx as [<-|[]]. destruct Hy as [<-|[]]. reflexivity. }
  rewrite EA. unfold common_run. rewrite EF, H3. cbn [fold_left last]. rewrite Nat.eqb_refl.
  assert (HL : exists b, L = f :: b) by (destruct (walk_head g (length (els g)) f) as [b Hb']; exists b; rewrite EL; exact Hb').
  destruct HL as [b HL].
  destruct (proc_chain v g (run_of (map (fun c => (idof c, exec v c)) cs))) with (b := b) (x := f) (n := Datatypes.S (length (els g))) (s := mkCst (left0 g) 0 [] None) as [P1 [P2 [y P3]]].
  - intros x Hx. destruct (in_level v cs x Hx) as [c [Hc <-]]. rewrite (run_of_map (exec v) cs c HN Hc). apply Hrun; exact Hc.
  - pose proof (Permutation_length (proj1 C)) as K. rewrite HL in K. cbn [length] in K. lia.
  - rewrite <- HL. intros x Hx. apply HLi; exact Hx.
  - rewrite <- HL. exact S.
  - reflexivity.
  - rewrite <- HL. destruct (existsb (fun y => negb (Z.eqb (n_bind v y) (-1))) L) eqn:Q.
    + apply existsb_exists in Q. destruct Q as [y [Hy Q]]. exists y. split; [exact Hy|]. destruct (Z.eqb_spec (n_bind v y) (-1)); [discriminate|assumption].
    + exfalso. apply HLb. assert (K : forall w, In w L -> n_bind v w = (-1)%Z).
      { intros w Hw'. destruct (Z.eqb_spec (n_bind v w) (-1)) as [|Hn]; [assumption|]. exfalso. assert (existsb (fun y => negb (Z.eqb (n_bind v y) (-1))) L = true); [|congruence]. apply existsb_exists. exists w. split; [exact Hw'|]. destruct (Z.eqb_spec (n_bind v w) (-1)); [contradiction|reflexivity]. }
      intros x y Hx Hy. rewrite (K x Hx), (K y Hy). reflexivity.
  - rewrite P1, P2. cbn [fst snd]. split; [reflexivity|]. exists y. exact P3.
Qed.

(** A parallel multi condition with a single child that matches: makeSerial succeeds, and the run never returns. *)
Theorem C49_parallel_multi_refuted : forall v i c, level_ok v [E i KMultiP [c]] -> n_dep v i = [] -> n_succ v i = [] -> n_async v i = false -> is_ser v c = true -> n_match v (idof c) = true ->
  make_serial v true true [E i KMultiP [c]] = true /\ run_pipeline v [E i KMultiP [c]] = ([SStart i; SPool (idof c)], RStuck).
Proof.
  intros v i c [Hw Ha] Hd Hs Has Hc Hm. split.
  - unfold make_serial, check_ser. cbn [forallb idof is_ser length Nat.ltb Nat.leb filter]. rewrite Hd, Hs, Has, Hc. reflexivity.
  - unfold run_pipeline, engine. rewrite (proj1 (isDag_spec _ Hw) Ha). unfold analysis_dag_type, linked_size, fronts, calc_shape. cbn [level els dep succ map idof filter]. rewrite Hd, Hs.
    cbn [is_nil length negb andb orb filter Nat.eqb Nat.sub serial_walk]. unfold run_of. cbn [find fst]. rewrite Nat.eqb_refl. cbn [snd exec]. rewrite Has.
    cbn [map filter]. rewrite Hm. reflexivity.
Qed.
(** A cluster with a child that has a timeout: makeSerial succeeds, and the run hands the child to the pool; its body is not executed. *)
Theorem C49_timeout_inside_refuted : forall v i c, level_ok v [E i KCluster [E c KNode []]] -> n_dep v i = [] -> n_succ v i = [] -> n_async v i = false -> n_async v c = true -> c <> i ->
  make_serial v true true [E i KCluster [E c KNode []]] = true /\ In (SPool c) (fst (run_pipeline v [E i KCluster [E c KNode []]])) /\ ~ In (SStart c) (fst (run_pipeline v [E i KCluster [E c KNode []]])).
Proof.
  intros v i c [Hw Ha] Hd Hs Has Hc Hci. split; [unfold make_serial, check_ser; cbn [forallb idof is_ser filter]; rewrite Hd, Hs, Has; reflexivity|].
  assert (K : fst (run_pipeline v [E i KCluster [E c KNode []]]) = if n_late_err v c then [SStart i; SPool c; SEnd i false] else [SStart i; SPool c; SEnd i true]).
  { unfold run_pipeline, engine. rewrite (proj1 (isDag_spec _ Hw) Ha). unfold analysis_dag_type, linked_size, fronts, calc_shape. cbn [level els dep succ map idof filter]. rewrite Hd, Hs.
    cbn [is_nil length negb andb orb filter Nat.eqb Nat.sub serial_walk]. unfold run_of. cbn [find fst]. rewrite Nat.eqb_refl. cbn [snd exec]. rewrite Has.
    cbn [map exec one_by_one]. rewrite Hc. destruct (n_late_err v c); cbn; rewrite ?Hs; reflexivity. }
  rewrite K. destruct (n_late_err v c); cbn; split; auto; intuition congruence.
Qed.
(** Elements registered after makeSerial are not checked again: with a second one beside the first, the pipeline cannot even be initialised. *)
Theorem C49_later_registration_refuted : exists v cs extra, level_ok v (cs ++ extra) /\ make_serial v true true cs = true /\ snd (run_pipeline v (cs ++ extra)) = RThrow.
Proof.
  exists (mkEnv (fun _ => []) (fun _ => []) (fun _ => -1)%Z (fun _ => false) (fun _ => true) (fun _ => true) (fun _ => 0%Z) (fun _ => false)), [E 0 KNode []], [E 1 KNode []].
  split; [|split; reflexivity]. split.
  - constructor; cbn.
    + repeat constructor; cbn; intuition.
    + intros e _. split; [constructor|intros ? []].
    + intros e _. split; [constructor|intros ? []].
    + tauto.
  - intros e H. assert (G : forall a b, path (level (mkEnv (fun _ => []) (fun _ => []) (fun _ => -1)%Z (fun _ => false) (fun _ => true) (fun _ => true) (fun _ => 0%Z) (fun _ => false)) ([E 0 KNode []] ++ [E 1 KNode []])) a b -> False).
    { induction 1 as [a b [_ []]|]; assumption. } exact (G _ _ H).
Qed.

(** * Examples *)
(** 0 -> 1 -> 2: element 1 is a region with the chain 11 -> 10, element 2 a cluster of 20, a condition and 22; [b] is the binding of the region. *)
Definition xv (b : Z) (bad : nat) : env :=
  mkEnv (fun e => match e with 1 => [0] | 2 => [1] | 10 => [11] | _ => [] end) (fun e => match e with 0 => [1] | 1 => [2] | 11 => [10] | _ => [] end)
        (fun e => if e =? 1 then b else (-1)%Z) (fun _ => false) (fun e => negb (e =? bad)) (fun _ => true) (fun _ => 1%Z) (fun _ => false).
Definition xcs : list elt := [E 2 KCluster [E 20 KNode []; E 21 KCond [E 210 KNode []; E 211 KNode []]; E 22 KNode []]; E 0 KNode []; E 1 (KRegion true) [E 10 KNode []; E 11 KMultiS [E 110 KNode []]]].
Lemma xv_level b bad : level_ok (xv b bad) xcs /\ level_ok (xv b bad) [E 10 KNode []; E 11 KMultiS [E 110 KNode []]].
Proof.
  assert (G : forall cs, (forall x, In x (map idof cs) -> incl (n_dep (xv b bad) x) (map idof cs) /\ incl (n_succ (xv b bad) x) (map idof cs)) -> NoDup (map idof cs) -> level_ok (xv b bad) cs).
  { intros cs Hin Hn. split.
    - constructor; cbn [level els dep succ]; [exact Hn| | |].
      + intros e He. split; [|apply Hin; exact He]. cbn [xv n_dep]. do 11 (destruct e as [|e]; [repeat constructor; cbn; intuition|]). repeat constructor.
      + intros e He. split; [|apply Hin; exact He]. cbn [xv n_succ]. do 12 (destruct e as [|e]; [repeat constructor; cbn; intuition|]). repeat constructor.
      + intros d e _ _. cbn [xv n_dep n_succ]. do 11 (destruct e as [|e]; [do 12 (destruct d as [|d]; [cbn; intuition lia|]); cbn; intuition lia|]). do 12 (destruct d as [|d]; [cbn; intuition lia|]). cbn. tauto.
    - assert (G : forall x y, path (level (xv b bad) cs) x y -> (if x =? 11 then 0 else S x) < (if y =? 11 then 0 else S y)).
      { induction 1 as [x y [_ H]|]; [|lia]. cbn [level dep xv n_dep] in H. do 11 (destruct y as [|y]; [cbn in H; intuition; subst; cbn; lia|]). destruct H. }
      intros e He. specialize (G e e He). lia. }
  split; apply G; cbn; try (repeat constructor; cbn; lia); intros x Hx;
    repeat (destruct Hx as [<-|Hx]; [split; intros y Hy; cbn in *; intuition|]); destruct Hx.
Qed.
Ltac ev HL Hb := constructor; [split; [split; [reflexivity|first [exact I|exact Hb]]|first [exact I|exact HL]]|
  let c := fresh "c" in let Hc := fresh "Hc" in intros c Hc; cbn [kidsof In] in Hc; repeat (destruct Hc as [Hc|Hc]; [subst c; ev HL Hb|]); destruct Hc].
Lemma xv_everywhere b bad : forall t, In t xcs -> everywhere (fun t => plain (xv b bad) t /\ region_ok (xv b bad) t) t.
Proof.
  pose proof (proj2 (xv_level b bad)) as HL.
  assert (Hb : one_binding (xv b bad) [E 10 KNode []; E 11 KMultiS [E 110 KNode []]]) by (intros c d Hc Hd; cbn in Hc, Hd; destruct Hc as [<-|[<-|[]]], Hd as [<-|[<-|[]]]; reflexivity).
  intros t Ht. cbn [In xcs] in Ht. destruct Ht as [<-|[<-|[<-|[]]]]; ev HL Hb.
Qed.
(** All is well; then with a body inside the cluster that fails. *)
Example C49_serial_ex : level_ok (xv (-1) 99) xcs /\ one_binding (xv (-1) 99) xcs /\ (forall t, In t xcs -> everywhere (fun t => plain (xv (-1) 99) t /\ region_ok (xv (-1) 99) t) t) /\
  make_serial (xv (-1) 99) true true xcs = true /\
  run_pipeline (xv (-1) 99) xcs = ([SStart 0; SEnd 0 true; SStart 1; SStart 11; SStart 110; SEnd 110 true; SEnd 11 true; SStart 10; SEnd 10 true; SEnd 1 true; SStart 2; SStart 20; SEnd 20 true; SStart 21; SStart 211; SEnd 211 true; SEnd 21 true; SStart 22; SEnd 22 true; SEnd 2 true], ROk) /\
  run_pipeline (xv (-1) 20) xcs = ([SStart 0; SEnd 0 true; SStart 1; SStart 11; SStart 110; SEnd 110 true; SEnd 11 true; SStart 10; SEnd 10 true; SEnd 1 true; SStart 2; SStart 20; SEnd 20 false; SEnd 2 false], RErr).
Proof.
  split; [apply xv_level|]. split. { intros c d Hc Hd. cbn in Hc, Hd. destruct Hc as [<-|[<-|[<-|[]]]], Hd as [<-|[<-|[<-|[]]]]; reflexivity. }
  split; [apply xv_everywhere|]. do 2 (split; [vm_compute; reflexivity|]). vm_compute; reflexivity.
Qed.
(** The region keeps the binding it is constructed with: element 0 runs, the region is handed to the pool, and that is the end of it. *)
Example C49_mixed_ex : make_serial (xv (-102) 99) true true xcs = true /\ ~ one_binding (xv (-102) 99) xcs /\ (forall c, In c xcs -> snd (exec (xv (-102) 99) c) = ROk) /\
  run_pipeline (xv (-102) 99) xcs = ([SStart 0; SEnd 0 true; SPool 1], RStuck).
Proof.
  split; [vm_compute; reflexivity|]. split; [intros H; specialize (H _ _ (or_introl eq_refl) (or_intror (or_intror (or_introl eq_refl)))); discriminate|].
  split; [|vm_compute; reflexivity]. intros c Hc. cbn [In xcs] in Hc. destruct Hc as [<-|[<-|[<-|[]]]]; vm_compute; reflexivity.
Qed.
(** What makeSerial refuses: a fork, a timeout at the top level, a shared pool. *)
Example C49_refuse_ex : make_serial (mkEnv (fun e => if e =? 0 then [] else [0]) (fun e => if e =? 0 then [1; 2] else []) (fun _ => -1)%Z (fun _ => false) (fun _ => true) (fun _ => true) (fun _ => 0%Z) (fun _ => false)) true true [E 0 KNode []; E 1 KNode []; E 2 KNode []] = false /\
  make_serial (mkEnv (fun _ => []) (fun _ => []) (fun _ => -1)%Z (fun e => e =? 0) (fun _ => true) (fun _ => true) (fun _ => 0%Z) (fun _ => false)) true true [E 0 KNode []] = false /\
  make_serial (xv (-1) 99) false true xcs = false.
Proof. repeat split. Qed.

Print Assumptions C49_serial_partial.
Print Assumptions C49_all_run_partial.
Print Assumptions C49_mixed_bindings_refuted.
Print Assumptions C49_parallel_multi_refuted.
Print Assumptions C49_timeout_inside_refuted.
Print Assumptions C49_later_registration_refuted.
Print Assumptions C49_refused_partial.
Example C49_refused_nonvacuous : let v := mkEnv (fun _ => []) (fun _ => []) (fun _ => -1)%Z (fun _ => false) (fun _ => true) (fun _ => true) (fun _ => 0%Z) (fun _ => false) in
  let one := [E 0 KCluster [E 1 KMultiP [E 2 KNode []]; E 3 (KRegion true) [E 4 KNode []]]] in let two := [E 0 KMultiP [E 2 KNode []; E 4 KNode []]] in
  make_serial v true true one = true /\ (forall t, In t one -> everywhere node_leaf t) /\ make_serial v true true two = false /\ make_serial v false true one = false.
Proof.
  cbn zeta. split; [reflexivity|]. split; [|split; reflexivity].
  intros t [<-|[]]. repeat (constructor; [cbn; auto|]; cbn [kidsof]; intros ? H; cbn in H; repeat (destruct H as [<-|H]); try (destruct H; fail)).
Qed.
