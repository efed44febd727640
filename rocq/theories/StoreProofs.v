(** Proofs about saving and loading. *)
From Verif Require Export StoreSpec.
From Verif Require Import ReflSpec ReflProofs ReflProps.
Local Open Scope nat_scope.
Local Open Scope list_scope.

Lemma seqb_eq a b : seqb a b = true <-> a = b.
Proof. unfold seqb. destruct list_eq_dec; intuition congruence. Qed.
Lemma seqb_refl a : seqb a a = true. Proof. now apply seqb_eq. Qed.
Lemma seqb_neq a b : a <> b -> seqb a b = false.
Proof. intros H. unfold seqb. destruct list_eq_dec; congruence. Qed.
Lemma seqb_false a b : seqb a b = false -> a <> b.
Proof. intros H ->. rewrite seqb_refl in H. discriminate. Qed.

(** * Bytes *)
Lemma onum_vnum k n : fits k n -> onum (vnum k n) = n.
Proof. intros H. cbn. now apply de_le. Qed.
Lemma olist_vlist {A} (f : A -> value) (g : value -> A) l : (forall x, In x l -> g (f x) = x) -> olist g (vlist f l) = l.
Proof. intros H. unfold olist, vlist. rewrite map_map. induction l as [|x l IH]; [easy|]. cbn [map]. rewrite H by now left. f_equal. apply IH. intros y Hy. apply H. now right. Qed.
Definition st_fits (t : st) : Prop :=
  fits 8 (t_loop t) /\ fits 1 (t_vis t) /\ fits 4 (t_bind t) /\ fits 4 (t_level t) /\ fits 8 (t_tmo t) /\ fits 4 (t_strat t) /\ fits 1 (t_macro t) /\ fits 4 (t_type t).
Lemma o_el_v t : st_fits t -> o_el (v_el t) = t.
Proof.
  intros (H1 & H2 & H3 & H4 & H5 & H6 & H7 & H8). unfold o_el, v_el, at_. cbn [vfields ofields nth ostr].
  rewrite !onum_vnum by assumption. rewrite !olist_vlist; [now destruct t|..]; try easy. intros [a b] _. reflexivity.
Qed.
Lemma vcfg_back w : forall c, Forall2 fits w c -> map onum (vcfg w c) = c.
Proof. induction w as [|k w IH]; intros c H; inversion H; subst; [easy|]. cbn [vcfg map]. rewrite onum_vnum by assumption. f_equal. now apply IH. Qed.
Lemma ofields_v l : ofields (vfields l) = l.
Proof. induction l as [|x l IH]; [easy|]. cbn. now rewrite IH. Qed.
Definition pst_fits (s : pst) : Prop :=
  Forall st_fits (ps_els s) /\ Forall (fun d => fits 8 (fst d)) (ps_daemons s) /\ Forall (fun d => fits 4 (fst (snd d))) (ps_stages s) /\ Forall2 fits cfg_widths (ps_cfg s).
Lemma o_pl_v s : pst_fits s -> o_pl (v_pl s) = s.
Proof.
  intros (H1 & H2 & H3 & H4). rewrite Forall_forall in H1, H2, H3. unfold o_pl, v_pl, at_. rewrite ofields_v. cbn [nth]. rewrite ofields_v, vcfg_back by assumption.
  rewrite !olist_vlist; [now destruct s|..].
  - intros [a [b c]] H. apply H3 in H. rewrite !ofields_v. cbn [nth fst snd ostr] in *. now rewrite onum_vnum.
  - intros [a b] H. apply H2 in H. rewrite !ofields_v. cbn [nth fst snd ostr] in *. now rewrite onum_vnum.
  - intros [a b] _. reflexivity.
  - intros [a b] _. reflexivity.
  - intros t H. apply o_el_v. now apply H1.
Qed.
Lemma ht_vlist {A} (f : A -> value) t l : (forall x, In x l -> has_type t (f x)) -> has_type (TVec t) (vlist f l).
Proof. intros H. cbn. apply Forall_forall. intros v Hv. apply in_map_iff in Hv as (x & <- & Hx). now apply H. Qed.
Lemma ht_fields i ts vs : Forall2 has_type ts vs -> has_type (fields_of i ts) (vfields vs).
Proof. intros H. revert i. induction H as [|t v ts vs Hv _ IH]; intros i; cbn; [easy|]. split; [exact Hv|]. apply IH. Qed.
Lemma ht_num k n : has_type (TFix k) (vnum k n).
Proof. cbn. apply le_length. Qed.
Lemma ht_el t : has_type ty_el (v_el t).
Proof.
  unfold ty_el, v_el. apply ht_fields. repeat (apply Forall2_cons); try apply Forall2_nil; try apply ht_num; try exact I.
  - now apply ht_vlist.
  - now apply ht_vlist.
  - apply ht_vlist. intros x _. apply ht_fields. constructor; [exact I|constructor].
  - apply ht_vlist. intros x _. apply ht_fields. constructor; [exact I|]. constructor; [exact I|constructor].
Qed.
Lemma ht_cfg w : forall c, length c = length w -> Forall2 has_type (map TFix w) (vcfg w c).
Proof. induction w as [|k w IH]; intros [|n c] H; try discriminate; cbn [map vcfg]; [constructor|]. constructor; [apply ht_num|]. apply IH. now injection H. Qed.
Lemma ht_pl s : length (ps_cfg s) = length cfg_widths -> has_type ty_pl (v_pl s).
Proof.
  intros H. unfold ty_pl, v_pl. apply ht_fields.
  assert (T : forall l, has_type (TVec two_strings) (vlist v2 l)) by (intros l; apply ht_vlist; intros x _; apply ht_fields; constructor; [exact I|constructor; [exact I|constructor]]).
  repeat (apply Forall2_cons); try apply Forall2_nil; try apply T.
  - apply ht_vlist. intros x _. apply ht_el.
  - apply ht_vlist. intros x _. apply ht_fields. constructor; [apply ht_num|]. constructor; [exact I|constructor].
  - apply ht_vlist. intros x _. apply ht_fields. constructor; [exact I|]. constructor; [apply ht_num|]. constructor; [exact I|constructor].
  - apply ht_fields. now apply ht_cfg.
Qed.
Lemma bit_fits b : fits 1 (bit b). Proof. unfold fits. destruct b; cbn; lia. Qed.
Lemma unbit_bit b : unbit (bit b) = b. Proof. now destruct b. Qed.
Lemma store_fits p : pl_fits p -> pst_fits (store p).
Proof.
  intros (H1 & H2 & H3 & H4 & _). unfold store, pst_fits. cbn [ps_els ps_daemons ps_stages ps_cfg]. rewrite Forall_forall in H1, H2, H3. split; [|split; [|split]].
  - apply Forall_forall. intros t Ht. apply in_map_iff in Ht as (e & <- & He). apply filter_In in He as [He _]. destruct (H1 e He) as (A & B & C & D & E & F).
    unfold st_fits, store_el. cbn. repeat (split; [first [assumption|apply bit_fits]|]). assumption.
  - apply Forall_forall. intros t Ht. apply in_map_iff in Ht as (e & <- & He). now apply H2.
  - apply Forall_forall. intros t Ht. apply in_map_iff in Ht as (e & <- & He). cbn. now apply H3.
  - exact H4.
Qed.
Lemma f2_length {A B} (R : A -> B -> Prop) l m : Forall2 R l m -> length l = length m.
Proof. induction 1; cbn; congruence. Qed.
Lemma supported : supported_ty ty_pl = true. Proof. reflexivity. Qed.
(** What load reads is what save stored. *)
Lemma save_reads p : pl_fits p -> p_init p = false -> existsb (fun e => e_repo e && is_adapter (e_type e)) (p_els p) = false ->
  exists b v, save p = LOk b /\ u_read ty_pl b (fresh ty_pl) = Some v /\ o_pl v = store p.
Proof.
  intros F I A. unfold save. rewrite I, A. assert (F' := F). destruct F' as (_ & _ & _ & L & Z). apply f2_length in L.
  destruct (C38_round_trip ty_pl (v_pl (store p)) (repeat 0%N (u_size ty_pl (v_pl (store p)))) supported) as (m & W & _ & R).
  - apply ht_pl. now rewrite L.
  - exact Z.
  - apply repeat_length.
  - rewrite W. exists m, (v_pl (store p)). split; [easy|]. split; [exact R|]. apply o_pl_v. now apply store_fits.
Qed.

(** * Elements *)
Section L.
Variable reg : str -> option obj.
Lemma on_id s f h : (forall e, In e h -> e_sess e = s -> f e = e) -> on s f h = h.
Proof.
  induction h as [|e h IH]; intros H; [easy|]. cbn [on map]. fold (on s f h). rewrite IH by (intros x Hx; apply H; now right). f_equal.
  destruct (seqb (e_sess e) s) eqn:E; [|easy]. apply seqb_eq in E. apply H; [now left|easy].
Qed.
Lemma on_app s f a b : on s f (a ++ b) = on s f a ++ on s f b.
Proof. apply map_app. Qed.
Lemma on_mid s f a e b : e_sess e = s -> ~ In s (ids a) -> ~ In s (ids b) -> on s f (a ++ e :: b) = a ++ f e :: b.
Proof.
  intros H Ha Hb. rewrite on_app. cbn [on map]. fold (on s f b). rewrite H, seqb_refl. rewrite !on_id; [easy|..]; intros x Hx E; exfalso; [apply Hb|apply Ha]; rewrite <- E; now apply in_map.
Qed.
Lemma find_in s h : In s (ids h) -> exists e, find_el s h = Some e /\ In e h /\ e_sess e = s.
Proof.
  intros H. unfold find_el. destruct (find _ h) as [e|] eqn:E.
  - apply find_some in E as [E1 E2]. apply seqb_eq in E2. now exists e.
  - apply in_map_iff in H as (e & <- & He). apply find_none with (x := e) in E; [|easy]. now rewrite seqb_refl in E.
Qed.
Lemma find_not s h : ~ In s (ids h) -> find_el s h = None.
Proof.
  intros H. unfold find_el. destruct (find _ h) as [e|] eqn:E; [|easy]. apply find_some in E as [E1 E2]. apply seqb_eq in E2. exfalso. apply H. rewrite <- E2. now apply in_map.
Qed.
Lemma find_mid s a e b : e_sess e = s -> ~ In s (ids a) -> find_el s (a ++ e :: b) = Some e.
Proof.
  intros H Ha. unfold find_el. induction a as [|x a IH]; cbn [app find].
  - now rewrite H, seqb_refl.
  - rewrite seqb_neq; [|intros E; apply Ha; now left]. apply IH. intros E. apply Ha. now right.
Qed.

(** The element after the first, second and third loop. *)
Definition el1 (e : el) : el := mkEl (e_sess e) (e_cls e) (e_type e) (e_name e) (e_loop e) (e_vis e) (e_bind e) (e_level e) (e_tmo e) (e_strat e) (e_macro e) None [] [] [] [] 0 false false.
Definition top (e : el) : bool := match e_belong e with None => true | Some _ => false end.
Definition blank_a (l : list (str * nat)) : list (str * nat) := map (fun a => (fst a, 0)) l.
Definition blank {A} (l : list (str * (A * nat))) : list (str * (A * nat)) := map (fun a => (fst a, (fst (snd a), 0))) l.
Definition el2 (e : el) : el := mkEl (e_sess e) (e_cls e) (e_type e) (e_name e) (e_loop e) (e_vis e) (e_bind e) (e_level e) (e_tmo e) (e_strat e) (e_macro e) (e_belong e) [] []
  (blank_a (e_aspects e)) (blank (e_locals e)) 0 (top e) (top e).
Definition here (l : list el) (k : str) : bool := existsb (seqb k) (ids l).
Definition el3 (l : list el) (e : el) : el := mkEl (e_sess e) (e_cls e) (e_type e) (e_name e) (e_loop e) (e_vis e) (e_bind e) (e_level e) (e_tmo e) (e_strat e) (e_macro e) (e_belong e) (e_deps e) (filter (here l) (e_kids e))
  (blank_a (e_aspects e)) (blank (e_locals e)) 0 (top e) (top e).
Lemma here_spec l k : here l k = true <-> In k (ids l).
Proof. unfold here. rewrite existsb_exists. split; [intros (x & H & E); apply seqb_eq in E; now subst|]. intros H. exists k. split; [easy|apply seqb_refl]. Qed.

Lemma name_same n s : n <> [] -> name_of n s = n. Proof. now destruct n. Qed.
Lemma set_loop_same e : e_tmo e = 0%N \/ e_loop e = 1%N -> set_loop e (e_loop e) = Some e.
Proof.
  intros H. unfold set_loop. replace ((0 <? e_tmo e)%N && negb (e_loop e =? 1)%N) with false by (destruct H as [-> | ->]; [easy|now rewrite andb_false_r]). now destruct e.
Qed.
Lemma recover_el e tmo : e_name e <> [] -> (tmo = 0%N \/ e_loop e = 1%N) -> (e_tmo e = 0%N \/ e_loop e = 1%N) -> (e_macro e = true -> e_type e = ty_node) ->
  recover (store_el e) (e_type e) tmo = Some (el1 e).
Proof.
  intros N T L M. unfold recover, store_el, set_loop. cbn [t_loop t_name t_cls t_vis t_bind t_level t_tmo t_strat t_sess t_macro e_tmo e_sess e_cls e_type e_name e_loop e_vis e_bind e_level e_strat e_macro e_belong e_deps e_kids e_aspects e_locals e_engine e_reg e_repo].
  replace ((0 <? tmo)%N && negb (e_loop e =? 1)%N) with false by (destruct T as [-> | ->]; [easy|now rewrite andb_false_r]).
  unfold set_timeout. cbn [t_loop t_name t_cls t_vis t_bind t_level t_tmo t_strat t_sess t_macro e_tmo e_sess e_cls e_type e_name e_loop e_vis e_bind e_level e_strat e_macro e_belong e_deps e_kids e_aspects e_locals e_engine e_reg e_repo].
  replace ((1 <? e_loop e)%N && negb (e_tmo e =? 0)%N) with false by (destruct L as [-> | ->]; [now rewrite andb_false_r|easy]).
  cbn [t_sess t_macro e_tmo e_sess e_cls e_type e_name e_loop e_vis e_bind e_level e_strat e_macro e_belong e_deps e_kids e_aspects e_locals e_engine e_reg e_repo].
  rewrite name_same by exact N. rewrite !unbit_bit. unfold el1.
  replace (if (e_type e =? ty_node)%N then e_macro e else false) with (e_macro e); [reflexivity|].
  destruct (e_type e =? ty_node)%N eqn:E; [reflexivity|]. apply N.eqb_neq in E. destruct (e_macro e); [|reflexivity]. exfalso. apply E. now apply M.
Qed.
Lemma filter_all {A} (f : A -> bool) l : (forall x, In x l -> f x = true) -> filter f l = l.
Proof. induction l as [|x l IH]; intros H; [easy|]. cbn. rewrite (H x) by now left. f_equal. apply IH. intros y Hy. apply H. now right. Qed.
Lemma ids_map f l : (forall e, e_sess (f e) = e_sess e) -> ids (map f l) = ids l.
Proof. intros H. unfold ids. rewrite map_map. apply map_ext. exact H. Qed.
Lemma phase1 : forall l a, Forall (good_el reg) l -> NoDup (ids (a ++ l)) -> each (load1 reg) (map store_el l) (map el1 a) = LOk (map el1 (a ++ l)).
Proof.
  induction l as [|e l IH]; intros a G ND; [now rewrite app_nil_r|]. inversion G as [|? ? Ge Gl]; subst. cbn [map each].
  assert (E : load1 reg (store_el e) (map el1 a) = LOk (map el1 (a ++ [e]))).
  { destruct Ge as [S Nm (tmo & R & T) L M _ _ _]. unfold load1. cbn [t_cls t_type store_el]. rewrite R, N.eqb_refl. cbn [negb]. fold (store_el e). rewrite recover_el by assumption.
    f_equal. unfold cache_put. rewrite filter_all; [now rewrite map_app|]. intros x Hx. apply in_map_iff in Hx as (y & <- & Hy). cbn [e_sess el1]. rewrite seqb_neq; [easy|].
    intros Q. unfold ids in ND. rewrite map_app in ND. cbn [map] in ND. apply NoDup_remove_2 in ND. apply ND. apply in_or_app. left. rewrite <- Q. now apply in_map. }
  rewrite E. cbn [bind]. rewrite IH; [now rewrite <- app_assoc|easy|now rewrite <- app_assoc].
Qed.
Lemma nd_mid a e (l : list el) : NoDup (ids (a ++ e :: l)) -> ~ In (e_sess e) (ids a) /\ ~ In (e_sess e) (ids l).
Proof. unfold ids. rewrite map_app. cbn [map]. intros H. apply NoDup_remove_2 in H. split; intros Q; apply H; apply in_or_app; [now left|now right]. Qed.
Lemma forallb_aspect e : Forall (fun a => reg (fst a) = Some OAspect) (e_aspects e) -> forallb (is_aspect reg) (map fst (e_aspects e)) = true.
Proof. intros H. apply forallb_forall. intros c Hc. apply in_map_iff in Hc as (a & <- & Ha). rewrite Forall_forall in H. unfold is_aspect. now rewrite (H a Ha). Qed.
Lemma forallb_passed e : Forall (fun a => reg (fst (snd a)) = Some OPassed) (e_locals e) -> forallb (fun p => is_passed reg (snd p)) (map (fun p => (fst p, fst (snd p))) (e_locals e)) = true.
Proof. intros H. apply forallb_forall. intros c Hc. apply in_map_iff in Hc as (a & <- & Ha). rewrite Forall_forall in H. unfold is_passed. cbn [snd]. now rewrite (H a Ha). Qed.
Lemma load2_mid a e b ha hb : Forall (good_el reg) [e] -> ids ha = ids a -> ids hb = ids b -> NoDup (ids (a ++ e :: b)) -> (forall g, e_belong e = Some g -> In g (ids (a ++ e :: b))) -> (forall g, e_belong e = Some g -> g <> []) ->
  load2 reg (store_el e) (ha ++ el1 e :: hb) = LOk (ha ++ el2 e :: hb).
Proof.
  intros G Ia Ib ND B1 B2. apply Forall_inv in G. destruct G as [S Nm _ L _ _ A P]. destruct (nd_mid _ _ _ ND) as [Na Nb]. rewrite <- Ia in Na. rewrite <- Ib in Nb.
  unfold load2. cbn [t_sess t_belong t_loop t_aspects t_locals store_el]. rewrite find_mid by easy. rewrite (forallb_aspect e A), (forallb_passed e P). cbn [andb].
  destruct (e_belong e) as [g|] eqn:E.
  - destruct g as [|x g]; [now contradiction (B2 [])|]. specialize (B1 (x :: g) eq_refl).
    destruct (find_in (x :: g) (ha ++ el1 e :: hb)) as (q & Q1 & _ & Q2).
    { unfold ids. rewrite map_app. cbn [map e_sess el1]. fold (ids ha) (ids hb). rewrite Ia, Ib. unfold ids in *. now rewrite map_app in B1. }
    rewrite Q1, on_mid by easy. f_equal. f_equal. f_equal. unfold attach, el2, el1, top. cbn. rewrite Q2, E. now rewrite !map_map.
  - assert (SL := set_loop_same (el1 e) L). cbn [el1 e_loop] in SL. fold (el1 e) in SL. rewrite SL. rewrite on_mid by easy. f_equal. f_equal. f_equal. unfold attach, el2, el1, top. cbn. rewrite E.
    destruct (e_name e) as [|c n] eqn:En; [now contradiction Nm|]. now rewrite !map_map.
Qed.
Lemma phase2 l0 : NoDup (ids l0) -> (forall e g, In e l0 -> e_belong e = Some g -> In g (ids l0)) -> Forall (good_el reg) l0 ->
  forall l a, l0 = a ++ l -> each (load2 reg) (map store_el l) (map el2 a ++ map el1 l) = LOk (map el2 l0).
Proof.
  intros ND B G. induction l as [|e l IH]; intros a ->; [now rewrite !app_nil_r|]. cbn [map each].
  assert (He : In e (a ++ e :: l)) by (apply in_or_app; right; now left).
  rewrite load2_mid with (a := a) (b := l); [| |now apply ids_map|now apply ids_map|exact ND|..].
  - cbn [bind]. specialize (IH (a ++ [e])). rewrite <- app_assoc in IH. cbn [app] in IH. rewrite map_app, <- app_assoc in IH. cbn [map app] in IH. now apply IH.
  - constructor; [|constructor]. rewrite Forall_forall in G. now apply G.
  - intros g Eg. exact (B e g He Eg).
  - intros g Eg ->. apply (B e [] He) in Eg. apply in_map_iff in Eg as (x & Ex & Hx). rewrite Forall_forall in G. destruct (G x Hx) as [S _ _ _ _ _ _ _]. contradiction.
Qed.
(** The third loop. *)
Definition kids_so_far (e : el) (ks : list str) : el := mkEl (e_sess e) (e_cls e) (e_type e) (e_name e) (e_loop e) (e_vis e) (e_bind e) (e_level e) (e_tmo e) (e_strat e) (e_macro e) (e_belong e) (e_deps e) ks
  (blank_a (e_aspects e)) (blank (e_locals e)) 0 (top e) (top e).
Lemma in_group_same g c : e_belong c = Some g -> in_group g c = c.
Proof. intros H. destruct c. unfold in_group. cbn in *. now rewrite H. Qed.
Lemma phase3_kids l0 a e l : l0 = a ++ e :: l -> NoDup (ids l0) ->
  (forall k c, In k (e_kids e) -> In c l0 -> e_sess c = k -> e_belong c = Some (e_sess e) /\ (e_type e = ty_some -> e_tmo c <> 0%N)) ->
  forall todo done, e_kids e = done ++ todo ->
  each (add_element (e_sess e) (e_type e)) todo (map (el3 l0) a ++ kids_so_far e (filter (here l0) done) :: map el2 l) = LOk (map (el3 l0) a ++ kids_so_far e (filter (here l0) (e_kids e)) :: map el2 l).
Proof.
  intros L ND K. assert (ND' := ND). rewrite L in ND'. apply nd_mid in ND' as [Na Nb].
  induction todo as [|k todo IH]; intros done E; [now rewrite E, app_nil_r|]. cbn [each].
  set (h := map (el3 l0) a ++ kids_so_far e (filter (here l0) done) :: map el2 l).
  assert (Ih : ids h = ids l0).
  { unfold h. rewrite L at 3. unfold ids. rewrite !map_app. cbn [map]. rewrite !map_map. reflexivity. }
  assert (Hh : forall c, In c h -> exists x, In x l0 /\ e_sess x = e_sess c /\ e_belong x = e_belong c /\ e_tmo x = e_tmo c).
  { intros c Hc. unfold h in Hc. apply in_app_or in Hc as [Hc|[<-|Hc]].
    - apply in_map_iff in Hc as (x & <- & Hx). exists x. rewrite L. split; [apply in_or_app; now left|easy].
    - exists e. rewrite L. split; [apply in_or_app; right; now left|easy].
    - apply in_map_iff in Hc as (x & <- & Hx). exists x. rewrite L. split; [apply in_or_app; right; now right|easy]. }
  assert (Ik : In k (e_kids e)) by (rewrite E; apply in_or_app; right; now left).
  assert (X : add_element (e_sess e) (e_type e) k h = LOk (map (el3 l0) a ++ kids_so_far e (filter (here l0) (done ++ [k])) :: map el2 l)).
  { unfold add_element. rewrite filter_app. cbn [filter]. destruct (here l0 k) eqn:Hk.
    - apply here_spec in Hk. destruct (find_in k h) as (c & F & Hc & Ec); [now rewrite Ih|]. rewrite F.
      destruct (Hh c Hc) as (x & Hx & Sx & Bx & Tx). destruct (K k x Ik Hx) as [K1 K2]; [congruence|].
      replace ((e_type e =? ty_some)%N && (e_tmo c =? 0)%N) with false.
      2: { symmetry. destruct (e_type e =? ty_some)%N eqn:Ey; [|easy]. apply N.eqb_eq in Ey. cbn. apply N.eqb_neq. rewrite <- Tx. now apply K2. }
      f_equal. unfold h at 1. rewrite on_mid with (e := kids_so_far e (filter (here l0) done)); [|easy|now rewrite ids_map|now rewrite ids_map].
      apply on_id. intros d Hd Ed. apply in_group_same. 
      assert (exists y, In y l0 /\ e_sess y = e_sess d /\ e_belong y = e_belong d) as (y & Hy & Sy & By).
      { apply in_app_or in Hd as [Hd|[<-|Hd]].
        - apply in_map_iff in Hd as (y & <- & Hy). exists y. rewrite L. split; [apply in_or_app; now left|easy].
        - exists e. rewrite L. split; [apply in_or_app; right; now left|easy].
        - apply in_map_iff in Hd as (y & <- & Hy). exists y. rewrite L. split; [apply in_or_app; right; now right|easy]. }
      rewrite <- By. apply (K k y Ik Hy). congruence.
    - rewrite find_not; [now rewrite app_nil_r|]. rewrite Ih. intros Q. apply here_spec in Q. congruence. }
  rewrite X. cbn [bind]. apply IH. now rewrite <- app_assoc.
Qed.
Lemma filter_deps s l : ~ In s l -> filter (fun d => negb (seqb d s) && negb (existsb (seqb d) [])) l = l.
Proof. intros H. apply filter_all. intros x Hx. rewrite seqb_neq; [easy|]. now intros ->. Qed.
Lemma phase3 l0 : good_links l0 -> forall l a, l0 = a ++ l -> each load3 (map store_el l) (map (el3 l0) a ++ map el2 l) = LOk (map (el3 l0) l0).
Proof.
  intros G. induction l as [|e l IH]; intros a E; [rewrite app_nil_r in *; now subst|]. cbn [map each].
  assert (He : In e l0) by (rewrite E; apply in_or_app; right; now left).
  assert (ND := gl_ids _ G). assert (ND' := ND). rewrite E in ND'. apply nd_mid in ND' as [Na Nb].
  set (h := map (el3 l0) a ++ el2 e :: map el2 l).
  assert (Ih : ids h = ids l0).
  { unfold h. rewrite E at 2. unfold ids. rewrite !map_app. cbn [map]. rewrite !map_map. reflexivity. }
  assert (X : load3 (store_el e) h = LOk (map (el3 l0) a ++ el3 l0 e :: map el2 l)).
  { unfold load3. cbn [t_sess t_deps t_kids store_el]. unfold h at 1. rewrite find_mid; [|easy|now rewrite ids_map].
    replace (forallb _ (e_deps e)) with true.
    2: { symmetry. apply forallb_forall. intros d Hd. destruct (gl_dep _ G e d He Hd) as (x & Hx & Sx & Bx). destruct (find_in d h) as (c & F & Hc & Ec). { rewrite Ih, <- Sx. now apply in_map. }
         rewrite F. assert (e_belong c = e_belong e) as ->.
         { assert (exists y, In y l0 /\ e_sess y = e_sess c /\ e_belong y = e_belong c) as (y & Hy & Sy & By).
           { unfold h in Hc. apply in_app_or in Hc as [Hd'|[<-|Hd']].
             - apply in_map_iff in Hd' as (y & <- & Hy). exists y. rewrite E. split; [apply in_or_app; now left|easy].
             - exists e. rewrite E. split; [apply in_or_app; right; now left|easy].
             - apply in_map_iff in Hd' as (y & <- & Hy). exists y. rewrite E. split; [apply in_or_app; right; now right|easy]. }
           assert (y = x) as ->; [|congruence]. clear - ND Hx Hy Sx Sy Ec. assert (S : e_sess y = e_sess x) by congruence. clear Sx Sy Ec.
           induction l0 as [|z l0 IHl]; [easy|]. cbn in ND. inversion ND as [|? ? N1 N2]; subst. destruct Hx as [->|Hx], Hy as [->|Hy]; [easy| | |now apply IHl].
           - exfalso. apply N1. rewrite <- S. now apply in_map.
           - exfalso. apply N1. rewrite S. now apply in_map. }
         cbn [e_belong el2]. destruct (e_belong e) as [g|]; [apply seqb_refl|easy]. }
    cbn [bind]. unfold h. rewrite on_mid; [|easy|now rewrite ids_map|now rewrite ids_map].
    replace (add_deps (e_deps e) (el2 e)) with (kids_so_far e []).
    2: { unfold add_deps, el2, kids_so_far. cbn [e_sess e_cls e_type e_name e_loop e_vis e_bind e_level e_tmo e_strat e_macro e_belong e_deps e_kids e_aspects e_locals e_engine e_reg e_repo app]. f_equal.
         destruct (gl_deps _ G e He) as [_ D]. symmetry. now apply filter_deps. }
    assert (Y := phase3_kids l0 a e l E ND (fun k c Hk Hc => gl_kid _ G e k c He Hk Hc) (e_kids e) [] eq_refl). cbn [filter] in Y. fold (el3 l0 e) in Y. change (kids_so_far e (filter (here l0) (e_kids e))) with (el3 l0 e) in Y.
    destruct (gl_kids _ G e He) as [_ Kg]. cbn [e_type el2]. destruct (e_kids e) as [|k ks] eqn:Ek.
    - cbn [each] in Y. exact Y.
    - rewrite Kg by easy. exact Y. }
  rewrite X. cbn [bind]. specialize (IH (a ++ [e])). rewrite <- app_assoc in IH. specialize (IH E). rewrite map_app, <- app_assoc in IH. exact IH.
Qed.
Lemma load_els l : Forall (good_el reg) l -> good_links l -> load_elements reg (map store_el l) = LOk (map (el3 l) l).
Proof.
  intros G K. unfold load_elements. change (@nil el) with (map el1 []). rewrite (phase1 l [] G (gl_ids _ K)). cbn [bind app]. assert (Q := phase2 l (gl_ids _ K) (gl_belong _ K) G l [] eq_refl). cbn [map app] in Q. rewrite Q. cbn [bind]. exact (phase3 l K l [] eq_refl).
Qed.
(** * The rest *)
Lemma each_keys {A B} (f : str * A -> list (str * B) -> res (list (str * B))) (g : str * A -> B) : forall l m, (forall x m, In x l -> f x m = LOk (kput (fst x) (g x) m)) -> NoDup (map fst m ++ map fst l) ->
  each f l m = LOk (m ++ map (fun x => (fst x, g x)) l).
Proof.
  induction l as [|x l IH]; intros m F ND; cbn [each map]; [now rewrite app_nil_r|]. rewrite F by now left. cbn [bind].
  unfold kput. rewrite filter_all.
  - rewrite IH; [now rewrite <- app_assoc|intros y n Hy; apply F; now right|]. rewrite map_app. cbn [map fst]. now rewrite <- app_assoc.
  - intros y Hy. rewrite seqb_neq; [easy|]. intros E. cbn [map] in ND. apply NoDup_remove_2 in ND. apply ND. apply in_or_app. left. rewrite <- E. now apply in_map.
Qed.
Lemma each_app {A B} (f : A -> list B -> res (list B)) (g : A -> B) : forall l m, (forall x m, In x l -> f x m = LOk (m ++ [g x])) -> each f l m = LOk (m ++ map g l).
Proof. induction l as [|x l IH]; intros m F; cbn [each map]; [now rewrite app_nil_r|]. rewrite F by now left. cbn [bind]. rewrite IH; [now rewrite <- app_assoc|]. intros y n Hy. apply F. now right. Qed.
Lemma load_events (l : list (str * (str * nat))) : NoDup (map fst l) -> Forall (fun x => reg (fst (snd x)) = Some OEvent) l ->
  each (load_event reg) (map (fun x => (fst x, fst (snd x))) l) [] = LOk (blank l).
Proof.
  intros ND F. rewrite each_keys with (g := fun x => (snd x, 0)).
  - cbn [app]. f_equal. rewrite map_map. reflexivity.
  - intros x m Hx. apply in_map_iff in Hx as (y & <- & Hy). rewrite Forall_forall in F. unfold load_event. cbn [snd fst]. now rewrite (F y Hy).
  - cbn [map app]. now rewrite map_map.
Qed.
Lemma load_stages (l : list (str * (N * str * nat))) : NoDup (map fst l) -> Forall (fun x => reg (snd (fst (snd x))) = Some OStage) l ->
  each (load_stage reg) (map (fun x => (fst x, fst (snd x))) l) [] = LOk (blank l).
Proof.
  intros ND F. rewrite each_keys with (g := fun x => (snd x, 0)).
  - cbn [app]. f_equal. rewrite map_map. reflexivity.
  - intros x m Hx. apply in_map_iff in Hx as (y & <- & Hy). rewrite Forall_forall in F. unfold load_stage. cbn [snd fst]. now rewrite (F y Hy).
  - cbn [map app]. now rewrite map_map.
Qed.
Lemma load_daemons (l : list (N * str * nat)) : Forall (fun x => reg (snd (fst x)) = Some ODaemon) l -> each (load_daemon reg) (map fst l) [] = LOk (map (fun x => (fst x, 0)) l).
Proof.
  intros F. rewrite each_app with (g := fun x => (x, 0)).
  - cbn [app]. f_equal. now rewrite map_map.
  - intros x m Hx. apply in_map_iff in Hx as (y & <- & Hy). rewrite Forall_forall in F. unfold load_daemon. rewrite (F y Hy). now destruct (fst y).
Qed.

(** What a pipeline without parameters is after saving and loading. *)
Definition reload (d2 : N * N) (p : pl) : pl :=
  mkPl false (map (el3 (p_els p)) (p_els p)) (blank (p_events p)) [] (map (fun x => (fst x, 0)) (p_daemons p)) (blank (p_stages p)) (p_cfg p) d2 0 false.
Lemma no_adapter p : Forall (good_el reg) (p_els p) -> existsb (fun e => e_repo e && is_adapter (e_type e)) (p_els p) = false.
Proof.
  intros G. destruct (existsb _ _) eqn:E; [|easy]. apply existsb_exists in E as (e & He & E). rewrite Forall_forall in G. destruct (G e He) as [_ _ _ _ _ Pl _ _]. rewrite Pl, andb_false_r in E. discriminate.
Qed.
(** Every pipeline whose repository is sound is loaded. *)
Lemma round_gen d2 p L : p_init p = false -> filter e_repo (p_els p) = L -> Forall (good_el reg) (p_els p) -> good_links L -> p_params p = [] ->
  NoDup (map fst (p_events p)) /\ Forall (fun x => reg (fst (snd x)) = Some OEvent) (p_events p) -> Forall (fun x => reg (snd (fst x)) = Some ODaemon) (p_daemons p) ->
  NoDup (map fst (p_stages p)) /\ Forall (fun x => reg (snd (fst (snd x))) = Some OStage) (p_stages p) -> cfg_check (p_cfg p) = true -> pl_fits p ->
  exists b, save p = LOk b /\
    load reg d2 b = LOk (mkPl false (map (el3 L) L) (blank (p_events p)) [] (map (fun x => (fst x, 0)) (p_daemons p)) (blank (p_stages p)) (p_cfg p) d2 0 false).
Proof.
  intros I EL G K P [E1 E2] D [S1 S2] C F. destruct (save_reads p F I (no_adapter p G)) as (b & v & W & R & O). exists b. split; [exact W|]. unfold load. rewrite R, O. unfold store.
  cbn [ps_els ps_events ps_params ps_daemons ps_stages ps_cfg]. rewrite EL, load_els; [|rewrite <- EL; apply Forall_forall; intros e He; apply filter_In in He as [He _]; rewrite Forall_forall in G; now apply G|exact K].
  cbn [bind]. rewrite load_events by assumption. cbn [bind]. rewrite P. cbn [map each bind]. rewrite load_daemons by assumption. cbn [bind]. rewrite load_stages by assumption. cbn [bind]. now rewrite C.
Qed.
End L.
