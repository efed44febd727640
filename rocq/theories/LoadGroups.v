(** C112: a load that reports success has found every dependency within its group. *)
From Verif Require Import StoreProofs StoreProps LoadProofs LoadProps.
Local Open Scope nat_scope.
Local Open Scope list_scope.

Section G.
Variable reg : str -> option obj.
Variable l : list st.
Hypothesis T : tidy l.
Definition group_of (t : st) : option str := match t_belong t with [] => None | b => Some b end.
Lemma same_rec t u : In t l -> In u l -> t_sess t = t_sess u -> t = u.
Proof.
  destruct T as [N _]. clear T. induction l as [|a m IH]; intros Ht Hu E; [contradiction|]. cbn [map] in N. apply NoDup_cons_iff in N as [N1 N2]. destruct Ht as [->|Ht], Hu as [->|Hu]; auto.
  - exfalso. apply N1. rewrite E. now apply in_map.
  - exfalso. apply N1. rewrite <- E. now apply in_map.
Qed.
(** The elements made for [l], of which those of [todo] are in no group yet. *)
Definition placed (todo : list st) (h : list el) : Prop :=
  (forall t, In t l -> In (t_sess t) (ids h)) /\
  forall e, In e h -> exists u, In u l /\ e_sess e = t_sess u /\ ((In u todo /\ e_belong e = None) \/ (~ In u todo /\ e_belong e = group_of u)).
Lemma ids_on s f h : (forall e, e_sess e = s -> e_sess (f e) = s) -> ids (on s f h) = ids h.
Proof. intros H. unfold ids, on. rewrite map_map. apply map_ext. intros e. destruct (seqb (e_sess e) s) eqn:E; [|reflexivity]. apply seqb_eq in E. rewrite E. now apply H. Qed.
Lemma placed_on todo s f h : (forall e, In e h -> e_sess e = s -> e_sess (f e) = e_sess e /\ e_belong (f e) = e_belong e) -> placed todo h -> placed todo (on s f h).
Proof.
  intros H [A B]. assert (I : ids (on s f h) = ids h). { unfold ids, on. rewrite map_map. apply map_ext_in. intros e He. destruct (seqb (e_sess e) s) eqn:E; [|reflexivity]. apply seqb_eq in E. now apply (H e He E). }
  split; [rewrite I; exact A|]. intros e He. apply in_map_iff in He as (x & <- & Hx). destruct (seqb (e_sess x) s) eqn:E; [|now apply B]. apply seqb_eq in E. destruct (H x Hx E) as [-> ->]. now apply B.
Qed.
Lemma placed_put t todo e' h : In t l -> ~ In t todo -> e_sess e' = t_sess t -> e_belong e' = group_of t -> placed (t :: todo) h -> placed todo (on (t_sess t) (fun _ => e') h).
Proof.
  intros Ht Nt S B [P Q]. split; [rewrite ids_on; [exact P|intros; exact S]|]. intros e He. apply in_map_iff in He as (x & <- & Hx). destruct (seqb (e_sess x) (t_sess t)) eqn:E.
  - exists t. split; [exact Ht|]. split; [exact S|]. right. now split.
  - apply seqb_false in E. destruct (Q x Hx) as (u & Hu & Su & [[[<-|K] V]|[K V]]); [congruence| |]; exists u; (split; [exact Hu|]; split; [exact Su|]); [left|right]; split; auto. intros X. apply K. now right.
Qed.
Lemma on_upd t b f h : (forall e, In e h -> e_sess e = t_sess t -> e_sess (f e) = t_sess t /\ e_belong (f e) = b) -> forall todo, In t l -> ~ In t todo -> b = group_of t -> placed (t :: todo) h -> placed todo (on (t_sess t) f h).
Proof.
  intros H todo Ht Nt B [P Q]. split.
  - assert (I : ids (on (t_sess t) f h) = ids h). { unfold ids, on. rewrite map_map. apply map_ext_in. intros e He. destruct (seqb (e_sess e) (t_sess t)) eqn:E; [|reflexivity]. apply seqb_eq in E. rewrite E. now apply (H e He E). } rewrite I. exact P.
  - intros e He. apply in_map_iff in He as (x & <- & Hx). destruct (seqb (e_sess x) (t_sess t)) eqn:E.
    + apply seqb_eq in E. destruct (H x Hx E) as [S V]. exists t. split; [exact Ht|]. split; [exact S|]. right. split; [exact Nt|]. now rewrite V.
    + apply seqb_false in E. destruct (Q x Hx) as (u & Hu & Su & [[[<-|K] V]|[K V]]); [congruence| |]; exists u; (split; [exact Hu|]; split; [exact Su|]); [left|right]; split; auto. intros X. apply K. now right.
Qed.
Lemma set_loop_belong e n e' : set_loop e n = Some e' -> e_belong e' = e_belong e.
Proof. unfold set_loop. destruct (_ && _); [discriminate|]. now intros [= <-]. Qed.
Lemma set_timeout_belong e t s e' : set_timeout e t s = Some e' -> e_belong e' = e_belong e.
Proof. unfold set_timeout. destruct (_ && _); [discriminate|]. now intros [= <-]. Qed.
Lemma placed1 : forall m h h', (forall t, In t m -> In t l) -> (forall e, In e h -> e_belong e = None /\ exists u, In u l /\ e_sess e = t_sess u) -> each (load1 reg) m h = LOk h' ->
  (forall e, In e h' -> e_belong e = None /\ exists u, In u l /\ e_sess e = t_sess u) /\ (forall t, In t m \/ In (t_sess t) (ids h) -> In (t_sess t) (ids h')).
Proof.
  induction m as [|t m IH]; intros h h' S F E; cbn [each] in E; [injection E as <-; split; [exact F|]; intros t [[]|X]; exact X|].
  unfold load1 at 1 in E. destruct (reg (t_cls t)) as [[ty tmo| | | | | |]|]; try discriminate E. destruct (negb (ty =? t_type t)%N); [discriminate E|]. destruct (recover t ty tmo) as [e|] eqn:Rc; [|discriminate E]. cbn [bind] in E.
  assert (Re : e_sess e = t_sess t /\ e_belong e = None).
  { split; [now apply (recover_id t ty tmo)|]. unfold recover in Rc. destruct (set_loop _ (t_loop t)) as [a|] eqn:A; [|discriminate]. destruct (set_timeout _ (t_tmo t) (t_strat t)) as [c|] eqn:C; [|discriminate]. injection Rc as <-. cbn [e_belong]. apply set_timeout_belong in C. cbn [e_belong] in C. rewrite C. now apply set_loop_belong in A. }
  destruct Re as [R1 R2]. destruct (IH (cache_put e h) h' (fun x X => S x (or_intror X))) as [A B]; [|exact E|].
  - intros x Hx. unfold cache_put in Hx. apply in_app_or in Hx as [Hx|[<-|[]]]; [apply filter_In in Hx as [Hx _]; now apply F|]. split; [exact R2|]. exists t. split; [apply S; now left|exact R1].
  - split; [exact A|]. intros x Hx. apply B. destruct (In_dec (list_eq_dec N.eq_dec) (t_sess x) (ids (cache_put e h))) as [Y|Y]; [now right|]. destruct Hx as [[<-|Hx]|Hx]; [| now left|].
    + exfalso. apply Y. unfold cache_put, ids. rewrite map_app. apply in_or_app. right. left. exact R1.
    + exfalso. apply Y. unfold cache_put, ids in *. rewrite map_app. apply in_or_app. apply in_map_iff in Hx as (y & Ey & Hy). destruct (seqb (e_sess y) (e_sess e)) eqn:Q; [right; left; apply seqb_eq in Q; congruence|left]. apply in_map_iff. exists y. split; [exact Ey|]. apply filter_In. split; [exact Hy|now rewrite Q].
Qed.
Lemma placed2 : forall m h, incl m l -> NoDup m -> placed m h -> fst (until (left2 reg) m h) = LOk tt -> placed [] (snd (until (left2 reg) m h)).
Proof.
  induction m as [|t m IH]; intros h S N P E; [exact P|]. cbn [until] in *. apply NoDup_cons_iff in N as [N1 N2]. apply then_ok in E as [E1 E2].
  assert (P' : placed m (snd (left2 reg t h))).
  { assert (Ht : In t l) by (apply S; now left). unfold left2 in *. destruct (find_el (t_sess t) h) as [e|] eqn:F; [|discriminate E1]. apply find_some in F as [Fe Fs]. destruct T as (_ & _ & T3 & _).
    destruct (t_belong t) as [|b bs] eqn:B.
    - destruct (set_loop e (t_loop t)) as [e'|] eqn:L; [|discriminate E1]. cbn [snd]. apply placed_put; auto.
      + cbn [attach e_sess]. destruct (set_loop_id _ _ _ L) as [-> _]. exact Fs.
      + cbn [attach e_belong]. rewrite (set_loop_belong _ _ _ L). unfold group_of. rewrite B. destruct P as [_ P]. destruct (P e Fe) as (u & Hu & Su & [[_ K]|[K _]]); [exact K|]. exfalso. apply K. left. apply same_rec; auto. congruence.
    - cbn [snd]. refine (on_upd t (Some (t_belong t)) _ h _ m Ht N1 _ P); [|unfold group_of; rewrite B; reflexivity]. intros x Hx Sx. cbn [attach e_sess e_belong]. split; [exact Sx|].
      assert (In (t_belong t) (ids h)). { destruct P as [P _]. specialize (T3 t Ht ltac:(rewrite B; discriminate)). apply in_map_iff in T3 as (g & Eg & Hg). rewrite <- Eg. now apply P. }
      destruct (find_in _ _ H) as (g & Fg & _ & Sg). rewrite B in Fg, Sg |- *. rewrite Fg. now rewrite Sg. }
  destruct (left2 reg t h) as [[[]| | |] h1]; cbn [and_then fst snd] in *; try discriminate E1. apply IH; auto. intros x Hx. apply S. now right.
Qed.
Lemma placed_kid g k gty h : In g l -> In k (t_kids g) -> placed [] h -> placed [] (snd (left_kid (t_sess g) gty k h)).
Proof.
  intros Hg Hk P. assert (P1 : placed [] (on (t_sess g) (add_kid k) h)) by (apply placed_on; [now intros e _ _|exact P]).
  assert (P2 : placed [] (on k (in_group (t_sess g)) (on (t_sess g) (add_kid k) h))).
  { apply placed_on; [|exact P1]. intros e He Se. split; [reflexivity|]. cbn [in_group e_belong]. destruct P1 as [_ P1]. destruct (P1 e He) as (u & Hu & Su & [[[] _]|[_ ->]]). destruct T as (_ & T2 & _ & T4). unfold group_of. rewrite (T4 g u Hg Hu) by congruence. pose proof (T2 g Hg). now destruct (t_sess g). }
  unfold left_kid, add_element. destruct (find_el k h) as [c|]; [|exact P]. destruct (_ && _); [|exact P2]. destruct (set_timeout c max_block_ttl hold_by_pipeline); [|exact P2]. cbn [snd]. apply placed_on; [|exact P2].
  intros z Hz Sz. destruct (set_timeout z max_block_ttl hold_by_pipeline) as [z'|] eqn:Q; [|now split]. split; [now apply set_timeout_id in Q|now apply set_timeout_belong in Q].
Qed.
Lemma placed_kids g gty : In g l -> forall ks h, incl ks (t_kids g) -> placed [] h -> placed [] (snd (until (left_kid (t_sess g) gty) ks h)).
Proof.
  intros Hg. induction ks as [|k ks IH]; intros h I P; [exact P|]. cbn [until]. pose proof (placed_kid g k gty h Hg (I k (or_introl eq_refl)) P) as P'. destruct (left_kid (t_sess g) gty k h) as [[[]| | |] h1]; cbn [and_then snd] in *; auto. apply IH; [|exact P']. intros x Hx. apply I. now right.
Qed.
Lemma placed3 t h : In t l -> placed [] h -> placed [] (snd (left3 t h)).
Proof.
  intros Ht P. unfold left3. destruct (find_el (t_sess t) h) as [e|]; [|exact P]. apply then_inv.
  - unfold left_deps. destruct (forallb _ _); [|exact P]. cbn [snd]. apply placed_on; [now intros x _ _|exact P].
  - intros h' P'. destruct (t_kids t) as [|k ks] eqn:K; [exact P'|]. destruct (is_group (e_type e)); [|exact P']. apply placed_kids; [exact Ht|rewrite K; apply incl_refl|exact P'].
Qed.
Lemma dep_group t h : In t l -> placed [] h -> fst (left3 t h) = LOk tt -> forall x, In x l -> In (t_sess x) (t_deps t) -> t_belong x = t_belong t.
Proof.
  intros Ht P E x Hx Hd. unfold left3 in E. destruct (find_el (t_sess t) h) as [e|] eqn:F; [|discriminate]. apply then_ok in E as [E _]. unfold left_deps in E. destruct (forallb _ (t_deps t)) in E; [|discriminate]. destruct (forallb _ (t_deps t)) eqn:G in E; [|discriminate].
  rewrite forallb_forall in G. specialize (G _ Hd). cbn beta in G. destruct (find_el (t_sess x) h) as [y|] eqn:Fy; [|discriminate]. apply find_some in F as [F1 F2]. apply find_some in Fy as [Y1 Y2]. destruct P as [_ P].
  destruct (P e F1) as (u & Hu & Su & [[[] _]|[_ Bu]]). destruct (P y Y1) as (w & Hw & Sw & [[[] _]|[_ Bw]]). rewrite Bu, Bw in G. assert (u = t) by (apply same_rec; auto; congruence). assert (w = x) by (apply same_rec; auto; congruence). subst u w.
  unfold group_of, same_group in G. destruct (t_belong x), (t_belong t); try discriminate; [reflexivity|]. now apply seqb_eq in G.
Qed.
Lemma placed_all : forall m h, incl m l -> placed [] h -> fst (until left3 m h) = LOk tt -> forall t x, In t m -> In x l -> In (t_sess x) (t_deps t) -> t_belong x = t_belong t.
Proof.
  induction m as [|a m IH]; intros h S P E t x Ht Hx Hd; [contradiction|]. cbn [until] in E. apply then_ok in E as [E1 E2]. assert (Ha : In a l) by (apply S; now left).
  destruct Ht as [<-|Ht]; [exact (dep_group a h Ha P E1 x Hx Hd)|]. apply (IH (snd (left3 a h)) (fun y Y => S y (or_intror Y)) (placed3 a h Ha P) E2); auto.
Qed.
Lemma elements_groups : fst (left_elements reg l) = LOk tt -> forall t x, In t l -> In x l -> In (t_sess x) (t_deps t) -> t_belong x = t_belong t.
Proof.
  intros H. unfold left_elements in H. destruct (each (load1 reg) l []) as [h| | |] eqn:E; try discriminate H. destruct (placed1 l [] h (fun t X => X) ltac:(intros e []) E) as [A B]. apply then_ok in H as [H2 H3].
  apply (placed_all l (snd (until (left2 reg) l h)) (incl_refl l)); [|exact H3]. apply placed2; [apply incl_refl|destruct T as [N _]; now apply NoDup_map_inv in N| |exact H2].
  split; [intros t Ht; apply B; now left|]. intros e He. destruct (A e He) as [V (u & Hu & Su)]. exists u. split; [exact Hu|]. split; [exact Su|]. left. now split.
Qed.
End G.

(** A load that reports success has found every dependency in the same group. *)
Theorem C112_groups : forall reg d2 p b s q, holds b s -> tidy (ps_els s) -> load_onto reg d2 p b = (LOk tt, q) ->
  forall t x, In t (ps_els s) -> In x (ps_els s) -> In (t_sess x) (t_deps t) -> t_belong x = t_belong t.
Proof.
  intros reg d2 p b s q H T E. destruct (p_init p) eqn:I; [unfold load_onto in E; rewrite I in E; discriminate|].
  assert (E' : fst (load_onto reg d2 p b) = LOk tt) by now rewrite E. apply (load_ok_iff reg d2 p b s I H) in E' as (E1 & _). exact (elements_groups reg (ps_els s) T E1).
Qed.
(** The file of [ex_pl] names two dependencies and loads; when the last node depends on one inside the cluster instead, it does not. *)
Definition ex_cross : pl := mkPl false (firstn 3 ex_els ++ [ex_node 22 None [[20]%N] 1 0 false true]) (p_events ex_pl) [] (p_daemons ex_pl) (p_stages ex_pl) ex_cfg (500, 1)%N 0 false.
Example C112_groups_ex : tidy (ps_els (store ex_pl)) /\ map t_deps (ps_els (store ex_pl)) = [[]; [[20]]; []; [[30]]]%N /\ tidy (ps_els (store ex_cross)) /\
  (exists b q, save ex_pl = LOk b /\ holds b (store ex_pl) /\ load_onto ex_reg (500, 1)%N (new_pipeline ex_cfg (500, 1)%N) b = (LOk tt, q)) /\
  (exists b q, save ex_cross = LOk b /\ holds b (store ex_cross) /\ load_onto ex_reg (500, 1)%N (new_pipeline ex_cfg (500, 1)%N) b = (LErr, q)).
Proof.
  assert (K : forall p, map t_sess (ps_els (store p)) = [[20]; [21]; [30]; [22]]%N -> map t_belong (ps_els (store p)) = [[30]; [30]; []; []]%N -> map t_kids (ps_els (store p)) = [[]; []; [[20]; [21]]; []]%N -> tidy (ps_els (store p))).
  { intros p A B C. destruct (ps_els (store p)) as [|a [|b [|c [|d [|x r]]]]]; try discriminate A. injection A as A1 A2 A3 A4. injection B as B1 B2 B3 B4. injection C as C1 C2 C3 C4. split; [|split; [|split]]; cbn [map].
    - rewrite A1, A2, A3, A4. repeat constructor; cbn; intuition discriminate.
    - intros t Ht. cbn [In] in Ht. destruct Ht as [<-|[<-|[<-|[<-|[]]]]]; congruence.
    - intros t Ht. cbn [In] in Ht. rewrite A1, A2, A3, A4. destruct Ht as [<-|[<-|[<-|[<-|[]]]]]; rewrite ?B1, ?B2, ?B3, ?B4; cbn; intuition congruence.
    - intros g t Hg Ht. cbn [In] in Hg, Ht. destruct Hg as [<-|[<-|[<-|[<-|[]]]]]; rewrite ?C1, ?C2, ?C3, ?C4; cbn [In]; try contradiction.
      destruct Ht as [<-|[<-|[<-|[<-|[]]]]]; rewrite ?A1, ?A2, ?A3, ?A4, ?B1, ?B2; intuition discriminate. }
  split; [apply K; reflexivity|]. split; [reflexivity|]. split; [apply K; reflexivity|]. split; (eexists _, _; split; [vm_compute; reflexivity|split; [eexists; split; vm_compute; reflexivity|vm_compute; reflexivity]]).
Qed.
Print Assumptions C112_groups.
