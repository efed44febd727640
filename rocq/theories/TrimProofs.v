(** trim: which dependencies it removes, over the whole tree of nested regions. *)
From Verif Require Import GraphModel GraphSpec DepProofs TopoProofs EngineSeqProofs OptModel OptProofs.
From Coq Require Import Lia.
Local Open Scope nat_scope.

(** ** Removing one dependency, then a list *)
Lemma rem_length l x : In x l -> S (length (rem l x)) = length l.
Proof.
  induction l as [|y l IH]; [intros []|]. cbn [rem]. destruct (Nat.eqb_spec y x) as [->|Hne]; [reflexivity|].
  intros [->|H]; [contradiction|]. cbn [length]. rewrite IH by exact H. reflexivity.
Qed.
Lemma removeDepend_fields st this d st' ok : removeDepend st this (Some d) = (st', ok) ->
  (forall x, e_init (st' x) = e_init (st x) /\ e_belong (st' x) = e_belong (st x)) /\
  (forall x, x <> this -> e_dep (st' x) = e_dep (st x)) /\
  (if ok then 1 else 0) + length (e_dep (st' this)) = length (e_dep (st this)).
Proof.
  unfold removeDepend. destruct (e_init (st this)) eqn:Ei; [intros H; inversion H; subst; auto|].
  destruct (memb d (e_dep (st this))) eqn:Em; simpl negb; cbn iota; [|intros H; inversion H; subst; auto].
  apply memb_in in Em. intros H; inversion H; clear H; subst. unfold upd.
  split; [|split].
  - intros x. destruct (Nat.eqb_spec x this), (Nat.eqb_spec x d), (Nat.eqb_spec this d); subst; cbn; auto; try congruence; rewrite ?Nat.eqb_refl; auto;
      destruct (Nat.eqb_spec d this); subst; cbn; auto; congruence.
  - intros x Hx. destruct (Nat.eqb_spec x this); [contradiction|]. destruct (Nat.eqb_spec x d); subst; cbn; [|reflexivity].
    destruct (Nat.eqb_spec d this); [congruence|reflexivity].
  - rewrite Nat.eqb_refl. cbn. destruct (Nat.eqb_spec this d); subst; cbn; rewrite ?Nat.eqb_refl; cbn; rewrite <- (rem_length _ d Em); reflexivity.
Qed.

Lemma remove_candidates_spec e : forall C st num st' num',
  edges_ok st -> e_init (st e) = false -> remove_candidates st e C num = (st', num') ->
  edges_ok st' /\
  (forall a b, depends st' a b <-> depends st a b /\ ~ (a = e /\ In b C)) /\
  (forall x, e_init (st' x) = e_init (st x) /\ e_belong (st' x) = e_belong (st x)) /\
  (forall x, x <> e -> e_dep (st' x) = e_dep (st x)) /\
  num' + length (e_dep (st' e)) = num + length (e_dep (st e)).
Proof.
  induction C as [|d C IH]; intros st num st' num' Hok Hi E; cbn [remove_candidates] in E.
  - inversion E; subst. split; [exact Hok|]. split; [intros a b; simpl; tauto|]. split; [auto|]. split; [auto|reflexivity].
  - destruct (removeDepend st e (Some d)) as [s1 ok] eqn:E1. destruct (removeDepend_fields _ _ _ _ _ E1) as [F1 [F2 F3]].
    assert (H1 : edges_ok s1 /\ (forall a b, depends s1 a b <-> depends st a b /\ ~ (a = e /\ b = d))).
    { destruct ok.
      - destruct (removeDepend_spec _ _ _ _ Hok E1) as [_ [_ [H [_ [H' _]]]]]. auto.
      - unfold removeDepend in E1. rewrite Hi in E1. destruct (memb d (e_dep (st e))) eqn:Em; simpl in E1; [inversion E1|]. inversion E1; subst. split; [exact Hok|].
        intros a b. split; [|tauto]. intros H. split; [exact H|]. intros [-> ->]. apply memb_false in Em. apply Em, H. }
    destruct H1 as [Hok1 D1]. assert (Hi1 : e_init (s1 e) = false) by (rewrite (proj1 (F1 e)); exact Hi).
    destruct (IH _ _ _ _ Hok1 Hi1 E) as [A1 [A2 [A3 [A4 A5]]]].
    split; [exact A1|]. split; [|split; [|split]].
    + intros a b. rewrite A2, D1. simpl. split; [intros [[H N1] N2]; split; [exact H|]; intros [-> [->|H3]]; tauto|]. intros [H N]. split; [split; [exact H|]|]; intros [-> X]; apply N; auto.
    + intros x. destruct (A3 x), (F1 x). split; congruence.
    + intros x Hx. rewrite (A4 x Hx). apply F2, Hx.
    + destruct ok; lia.
Qed.

Lemma candidates_spec M L dp d : In d (candidates M L dp) <-> In d dp /\ exists d', In d' dp /\ M (pos L d) (pos L d') = 1%Z.
Proof.
  unfold candidates. rewrite in_flat_map. split.
  - intros [x [Hx H]]. apply in_flat_map in H. destruct H as [y [Hy H]]. destruct (Z.eqb_spec (M (pos L x) (pos L y)) 1); [|contradiction].
    destruct H as [->|[]]. split; [exact Hx|]. exists y; auto.
  - intros [Hd [d' [Hd' E]]]. exists d. split; [exact Hd|]. apply in_flat_map. exists d'. split; [exact Hd'|]. rewrite E. left; reflexivity.
Qed.

(** ** The tree of regions *)
(** All elements of the tree; the element lists of the levels below. *)
Fixpoint ids (n : rnode) : list nat := match n with RN e s => e :: flat_map ids s end.
Fixpoint levels (n : rnode) : list (list rnode) := match n with RN _ s => s :: flat_map levels s end.
Definition rids (l : list rnode) : list nat := map root l.

Fixpoint rnode_rect' (P : rnode -> Prop) (H : forall e s, (forall x, In x s -> P x) -> P (RN e s)) (n : rnode) : P n :=
  match n with
  | RN e s => H e s ((fix go (l : list rnode) : forall x, In x l -> P x :=
      match l with
      | [] => fun x (h : In x []) => False_ind _ h
      | y :: r => fun x (h : In x (y :: r)) => match h with or_introl E => eq_ind y P (rnode_rect' P H y) x E | or_intror h' => go r x h' end
      end) s)
  end.

Definition level_ok (st : gst) (lv : list rnode) : Prop := wf (graph_of st (rids lv)) /\ acyclic (graph_of st (rids lv)).

Lemma root_in_ids n : In (root n) (ids n).
Proof. destruct n; left; reflexivity. Qed.
Lemma level_in_ids : forall n lv x, In lv (levels n) -> In x lv -> incl (ids x) (flat_map ids (subs n)).
Proof.
  apply (rnode_rect' (fun n => forall lv x, In lv (levels n) -> In x lv -> incl (ids x) (flat_map ids (subs n)))).
  intros e s IH lv x Hl Hx y Hy. cbn [levels subs] in *. destruct Hl as [<-|Hl].
  - apply in_flat_map. exists x; auto.
  - apply in_flat_map in Hl. destruct Hl as [z [Hz Hl]]. apply in_flat_map. exists z. split; [exact Hz|]. destruct z as [e' s']. right. apply (IH _ Hz lv x Hl Hx y Hy).
Qed.
Lemma level_rid_ids n lv a : In lv (levels n) -> In a (rids lv) -> In a (flat_map ids (subs n)).
Proof. intros Hl Ha. apply in_map_iff in Ha. destruct Ha as [x [<- Hx]]. apply (level_in_ids n lv x Hl Hx), root_in_ids. Qed.
Lemma levels_rid_ids l lv a : In lv (flat_map levels l) -> In a (rids lv) -> In a (flat_map ids l).
Proof.
  intros Hl Ha. apply in_flat_map in Hl. destruct Hl as [n [Hn Hl]]. apply in_flat_map. exists n. split; [exact Hn|].
  destruct n as [e s]. right. apply (level_rid_ids (RN e s) lv a Hl Ha).
Qed.

(** Paths within a set depend only on the dependency lists of its elements. *)
Lemma path_same st st' L : (forall a, In a L -> e_dep (st' a) = e_dep (st a)) -> forall x y, path (graph_of st L) x y <-> path (graph_of st' L) x y.
Proof.
  intros H x y. unfold path, edge. simpl. split; induction 1 as [a b [Hb Hab]|a b c _ IH1 _ IH2]; try (eapply t_trans; eassumption); apply t_step; (split; [exact Hb|]);
    [rewrite H by exact Hb|rewrite <- H by exact Hb]; exact Hab.
Qed.
Lemma level_transfer st st' lv : edges_ok st -> edges_ok st' -> (forall a b, depends st' a b -> depends st a b) ->
  (forall a, In a (rids lv) -> e_dep (st' a) = e_dep (st a)) -> level_ok st lv -> level_ok st' lv.
Proof.
  intros Hok Hok' Hs Hd [Hwf Ha]. split.
  - apply wf_of_state; [exact Hok'|apply Hwf|]. intros e He. destruct (wf_dep _ Hwf e He) as [_ W1]. destruct (wf_succ _ Hwf e He) as [_ W2]. simpl in W1, W2. split.
    + rewrite (Hd e He). exact W1.
    + intros x Hx. apply W2. apply Hok. apply Hs. apply Hok'. exact Hx.
  - intros e He. apply (Ha e). apply (path_same st st'); assumption.
Qed.

(** What remains of the dependencies of one level. *)
Definition kept (st : gst) (lv : list rnode) (a b : nat) : Prop :=
  depends st a b /\ ~ exists b', depends st a b' /\ path (graph_of st (rids lv)) b b'.

Lemma kept_same st st' lv a b : (forall x, In x (rids lv) -> e_dep (st' x) = e_dep (st x)) -> In a (rids lv) -> (kept st' lv a b <-> kept st lv a b).
Proof.
  intros H Ha. unfold kept, depends. rewrite (H a Ha). pose proof (path_same st st' (rids lv) H) as HP.
  split; intros [H1 H2]; (split; [exact H1|]); intros [b' [X Y]]; apply H2; exists b'; (split; [exact X|]); apply HP; exact Y.
Qed.

(** The matrix of one level answers exactly the path relation. *)
Lemma level_matrix st lv : level_ok st lv -> exists paths, collect_paths (graph_of st (rids lv)) = Some paths /\
  forall a b, In a (rids lv) -> In b (rids lv) -> (build_graph (rids lv) paths 1 0 0 (pos (rids lv) a) (pos (rids lv) b) = 1%Z <-> path (graph_of st (rids lv)) a b).
Proof.
  intros [Hwf Ha]. destruct (build_graph_spec _ 1 0 0 Hwf Ha) as [paths [E HM]]. exists paths. split; [exact E|]. simpl els in HM.
  intros a b Hia Hib. destruct (HM a b Hia Hib) as [C1 [C2 C3]]. split; [|exact C1]. intros X.
  destruct (path_dec _ a b Hwf Ha) as [P1|N1]; [exact P1|]. destruct (path_dec _ b a Hwf Ha) as [P2|N2].
  - rewrite (C2 P2) in X. discriminate.
  - rewrite (C3 N1 N2) in X. discriminate.
Qed.

Definition deps_total (st : gst) (l : list nat) : nat := sumf (fun x => length (e_dep (st x))) l.
Lemma deps_total_same st st' l : (forall x, In x l -> e_dep (st' x) = e_dep (st x)) -> deps_total st' l = deps_total st l.
Proof. intros H. apply sumf_ext. intros x Hx. rewrite H by exact Hx. reflexivity. Qed.

(** What a piece of the trim run does: [own a b] tells which dependencies of the roots survive. *)
Record trimmed (st st' : gst) (num num' : nat) (ns : list rnode) (lvs : list (list rnode)) (dropped : nat -> list nat) : Prop := {
  tr_ok : edges_ok st';
  tr_flags : forall x, e_init (st' x) = e_init (st x) /\ e_belong (st' x) = e_belong (st x);
  tr_out : forall x, ~ In x (flat_map ids ns) -> e_dep (st' x) = e_dep (st x);
  tr_sub : forall a b, depends st' a b -> depends st a b;
  tr_roots : forall n, In n ns -> forall b, depends st' (root n) b <-> depends st (root n) b /\ ~ In b (dropped (root n));
  tr_levels : forall lv, In lv lvs -> forall a b, In a (rids lv) -> (depends st' a b <-> kept st lv a b);
  tr_count : num' + deps_total st' (flat_map ids ns) = num + deps_total st (flat_map ids ns)
}.

Lemma inner_loop M' L' : forall s x,
  (fix loop (l : list rnode) (s : gst * nat) : option (gst * nat) :=
     match l with
     | [] => Some s
     | x :: r => match trim_node M' L' x s with Some s' => loop r s' | None => None end
     end) s x = trim_loop M' L' s x.
Proof. induction s as [|n s IH]; intros x; cbn [trim_loop]; [reflexivity|]. destruct (trim_node M' L' n x); [apply IH|reflexivity]. Qed.

Definition trims_node (n : rnode) : Prop := forall M L st num,
  edges_ok st -> (forall x, In x (ids n) -> e_init (st x) = false) -> NoDup (ids n) -> (forall lv, In lv (levels n) -> level_ok st lv) ->
  exists st' num', trim_node M L n (st, num) = Some (st', num') /\
    trimmed st st' num num' [n] (levels n) (fun x => candidates M L (e_dep (st x))).

Lemma trims_list : forall l, (forall n, In n l -> trims_node n) -> forall M L st num,
  edges_ok st -> (forall x, In x (flat_map ids l) -> e_init (st x) = false) -> NoDup (flat_map ids l) -> (forall lv, In lv (flat_map levels l) -> level_ok st lv) ->
  exists st' num', trim_loop M L l (st, num) = Some (st', num') /\
    trimmed st st' num num' l (flat_map levels l) (fun x => candidates M L (e_dep (st x))).
Proof.
  induction l as [|n l IH]; intros HP M L st num Hok Hi Hnd Hlv.
  - exists st, num. split; [reflexivity|]. constructor; simpl; auto; intros; contradiction.
  - cbn [flat_map] in Hi, Hnd, Hlv. apply NoDup_app_iff in Hnd. destruct Hnd as [Hn1 [Hn2 Hdis]].
    destruct (HP n (or_introl eq_refl) M L st num Hok) as [s1 [k1 [E1 T1]]]; [intros; apply Hi, in_or_app; auto|exact Hn1|intros; apply Hlv, in_or_app; auto|].
    destruct T1 as [O1 F1 U1 S1 R1 V1 C1]. simpl flat_map in U1, C1. rewrite app_nil_r in C1.
    assert (U1' : forall x, In x (flat_map ids l) -> e_dep (s1 x) = e_dep (st x)).
    { intros x Hx. apply U1. rewrite app_nil_r. intros X. apply (Hdis x X Hx). }
    assert (Hlv1 : forall lv, In lv (flat_map levels l) -> forall a, In a (rids lv) -> e_dep (s1 a) = e_dep (st a)) by (intros lv Hl a Ha; apply U1', (levels_rid_ids l lv a Hl Ha)).
    destruct (IH (fun m Hm => HP m (or_intror Hm)) M L s1 k1 O1) as [s2 [k2 [E2 T2]]].
    { intros x Hx. rewrite (proj1 (F1 x)). apply Hi, in_or_app; auto. }
    { exact Hn2. }
    { intros lv Hl. apply (level_transfer st s1 lv Hok O1 S1 (Hlv1 lv Hl)). apply Hlv, in_or_app; auto. }
    destruct T2 as [O2 F2 U2 S2 R2 V2 C2].
    assert (U2n : forall x, In x (ids n) -> e_dep (s2 x) = e_dep (s1 x)) by (intros x Hx; apply U2; intros X; apply (Hdis x Hx X)).
    exists s2, k2. split; [cbn [trim_loop]; rewrite E1; exact E2|]. constructor.
    + exact O2.
    + intros x. destruct (F1 x), (F2 x). split; congruence.
    + intros x Hx. cbn [flat_map] in Hx. rewrite U2 by (intros X; apply Hx, in_or_app; auto). apply U1. rewrite app_nil_r. intros X; apply Hx, in_or_app; auto.
    + auto.
    + intros m [<-|Hm] b.
      * unfold depends. rewrite (U2n _ (root_in_ids n)). apply (R1 n (or_introl eq_refl)).
      * assert (Hm' : In (root m) (flat_map ids l)) by (apply in_flat_map; exists m; split; [exact Hm|apply root_in_ids]).
        specialize (R2 m Hm b). unfold depends in *. rewrite (U1' _ Hm') in R2. exact R2.
    + intros lv Hl a b Ha. cbn [flat_map] in Hl. apply in_app_iff in Hl. destruct Hl as [Hl|Hl].
      * assert (Hia : In a (ids n)). { destruct n as [e s]. right. apply (level_rid_ids (RN e s) lv a Hl Ha). }
        unfold depends at 1. rewrite (U2n a Hia). apply (V1 lv Hl a b Ha).
      * rewrite (V2 lv Hl a b Ha). apply kept_same; [apply (Hlv1 lv Hl)|exact Ha].
    + cbn [flat_map]. unfold deps_total in *. rewrite !sumf_app in *.
      pose proof (deps_total_same s1 s2 (ids n) U2n) as X1. pose proof (deps_total_same st s1 (flat_map ids l) U1') as X2. unfold deps_total in X1, X2. lia.
Qed.

Lemma trims_node_all : forall n, trims_node n.
Proof.
  apply rnode_rect'. intros e s IH M L st num Hok Hi Hnd Hlv. cbn [trim_node fst snd].
  cbn [ids] in Hi, Hnd. inversion Hnd as [|e' l' Hne Hnd']; subst. cbn [levels] in Hlv.
  destruct (remove_candidates st e (candidates M L (e_dep (st e))) num) as [s1 k1] eqn:E1.
  destruct (remove_candidates_spec _ _ _ _ _ _ Hok (Hi e (or_introl eq_refl)) E1) as [O1 [D1 [F1 [U1 C1]]]]. cbn [fst snd].
  assert (S1 : forall a b, depends s1 a b -> depends st a b) by (intros a b H; apply D1, H).
  assert (U1s : forall x, In x (flat_map ids s) -> e_dep (s1 x) = e_dep (st x)) by (intros x Hx; apply U1; intros ->; contradiction).
  assert (Hlv1 : forall lv, In lv (levels (RN e s)) -> forall a, In a (rids lv) -> e_dep (s1 a) = e_dep (st a)).
  { intros lv Hl a Ha. apply U1s. apply (level_rid_ids (RN e s) lv a Hl Ha). }
  assert (L1 : level_ok s1 s) by (apply (level_transfer st s1 s Hok O1 S1); [apply Hlv1; left; reflexivity|apply Hlv; left; reflexivity]).
  destruct (level_matrix s1 s L1) as [paths [Ep HM]]. unfold rids in Ep. rewrite Ep. rewrite inner_loop. fold (rids s).
  destruct (trims_list s IH (build_graph (rids s) paths 1 0 0) (rids s) s1 k1 O1) as [s2 [k2 [E2 T2]]].
  { intros x Hx. rewrite (proj1 (F1 x)). apply Hi. right; exact Hx. }
  { exact Hnd'. }
  { intros lv Hl. apply (level_transfer st s1 lv Hok O1 S1); [apply Hlv1; right; exact Hl|apply Hlv; right; exact Hl]. }
  destruct T2 as [O2 F2 U2 S2 R2 V2 C2]. exists s2, k2. split; [exact E2|].
  assert (Ue : e_dep (s2 e) = e_dep (s1 e)) by (apply U2; exact Hne).
  constructor.
  - exact O2.
  - intros x. destruct (F1 x), (F2 x). split; congruence.
  - intros x Hx. cbn [flat_map ids] in Hx. rewrite app_nil_r in Hx. rewrite U2 by (intros X; apply Hx; right; exact X). apply U1. intros ->. apply Hx; left; reflexivity.
  - auto.
  - intros n [<-|[]] b. cbn [root]. unfold depends at 1. rewrite Ue. fold (depends s1 e b). rewrite D1. split; intros [X Y]; (split; [exact X|]); [tauto|]. intros [_ Z]; contradiction.
  - intros lv [<-|Hl] a b Ha.
    + apply in_map_iff in Ha. destruct Ha as [x [<- Hx]]. assert (Ha : In (root x) (rids s)) by (apply in_map; exact Hx).
      rewrite (R2 x Hx b). rewrite <- (kept_same st s1 s (root x) b); [|apply Hlv1; left; reflexivity|exact Ha].
      unfold kept. rewrite candidates_spec. destruct L1 as [Lwf _]. destruct (wf_dep _ Lwf (root x) Ha) as [_ Hincl]. simpl in Hincl.
      split; intros [X Y]; (split; [exact X|]).
      * intros [b' [Z W]]. apply Y. split; [exact X|]. exists b'. split; [exact Z|]. apply HM; [apply Hincl; exact X|apply Hincl; exact Z|exact W].
      * intros [_ [b' [Z W]]]. apply Y. exists b'. split; [exact Z|]. apply HM; [apply Hincl; exact X|apply Hincl; exact Z|exact W].
    + rewrite (V2 lv Hl a b Ha). apply kept_same; [apply Hlv1; right; exact Hl|exact Ha].
  - cbn [flat_map ids]. rewrite app_nil_r. unfold deps_total in *. cbn [sumf]. rewrite Ue. pose proof (deps_total_same st s1 _ U1s) as X. unfold deps_total in X. lia.
Qed.

(** All levels of a tree: the top one and those of the nested regions. *)
Definition all_levels (l : list rnode) : list (list rnode) := l :: flat_map levels l.
Definition all_ids (l : list rnode) : list nat := flat_map ids l.

Lemma trim_lemma st l : edges_ok st -> NoDup (all_ids l) -> (forall x, In x (all_ids l) -> e_init (st x) = false) ->
  (forall lv, In lv (all_levels l) -> level_ok st lv) ->
  exists st' num, trim st l = Some (st', num) /\ edges_ok st' /\
    (forall lv, In lv (all_levels l) -> forall a b, In a (rids lv) -> (depends st' a b <-> kept st lv a b)) /\
    (forall x, ~ In x (all_ids l) -> e_dep (st' x) = e_dep (st x)) /\
    (forall x, e_init (st' x) = e_init (st x) /\ e_belong (st' x) = e_belong (st x)) /\
    (forall a b, depends st' a b -> depends st a b) /\
    num + deps_total st' (all_ids l) = deps_total st (all_ids l).
Proof.
  intros Hok Hnd Hi Hlv. assert (L0 : level_ok st l) by (apply Hlv; left; reflexivity).
  destruct (level_matrix st l L0) as [paths [Ep HM]]. unfold trim. fold (rids l). rewrite Ep.
  destruct (trims_list l (fun n _ => trims_node_all n) (build_graph (rids l) paths 1 0 0) (rids l) st 0 Hok Hi Hnd) as [st' [num [E T]]].
  { intros lv Hl. apply Hlv. right; exact Hl. }
  destruct T as [O F U S R V C]. exists st', num. split; [exact E|]. split; [exact O|]. split; [|split; [exact U|split; [exact F|split; [exact S|exact C]]]].
  intros lv [<-|Hl] a b Ha; [|apply V; assumption].
  apply in_map_iff in Ha. destruct Ha as [x [<- Hx]]. assert (Ha : In (root x) (rids l)) by (apply in_map; exact Hx).
  rewrite (R x Hx b). unfold kept. rewrite candidates_spec. destruct L0 as [Lwf _]. destruct (wf_dep _ Lwf (root x) Ha) as [_ Hincl]. simpl in Hincl.
  split; intros [X Y]; (split; [exact X|]).
  - intros [b' [Z W]]. apply Y. split; [exact X|]. exists b'. split; [exact Z|]. apply HM; [apply Hincl; exact X|apply Hincl; exact Z|exact W].
  - intros [_ [b' [Z W]]]. apply Y. exists b'. split; [exact Z|]. apply HM; [apply Hincl; exact X|apply Hincl; exact Z|exact W].
Qed.

(** ** Reachability is unchanged, nothing redundant is left *)
Lemma pos_before l x y : NoDup l -> before l x y -> pos l x < pos l y.
Proof.
  induction l as [|z l IH]; intros Hn Hb; [apply before_in in Hb; destruct Hb as [[] _]|].
  inversion Hn; subst. apply before_cons in Hb. cbn [pos]. destruct Hb as [[-> Hy]|Hb].
  - rewrite Nat.eqb_refl. destruct (Nat.eqb_spec z y); [subst; contradiction|lia].
  - apply before_in in Hb as Hi. destruct Hi as [Hx Hy]. destruct (Nat.eqb_spec z x); [subst; contradiction|]. destruct (Nat.eqb_spec z y); [subst; contradiction|]. specialize (IH H2 Hb). lia.
Qed.

Lemma dep_split {A} (Q : A -> Prop) : (forall x, Q x \/ ~ Q x) -> forall l, (exists x, In x l /\ Q x) \/ ~ (exists x, In x l /\ Q x).
Proof.
  intros H. induction l as [|x l IH]; [right; intros [x [[] _]]|]. destruct (H x) as [Hx|Hx]; [left; exists x; split; [left; reflexivity|exact Hx]|].
  destruct IH as [[y [Hy Q1]]|IH]; [left; exists y; split; [right; exact Hy|exact Q1]|]. right. intros [y [[->|Hy] Q1]]; [contradiction|]. apply IH; exists y; auto.
Qed.

(** [g'] keeps of each dependency list exactly the entries without a path to another entry. *)
Definition reduced (g g' : graph) : Prop :=
  els g' = els g /\ forall e d, In e (els g) -> (In d (dep g' e) <-> In d (dep g e) /\ ~ exists d', In d' (dep g e) /\ path g d d').

Lemma reduced_path g g' : wf g -> acyclic g -> reduced g g' -> forall x y, path g' x y <-> path g x y.
Proof.
  intros Hwf Ha [He Hd].
  destruct (topo_setup_spec g Hwf) as [HT _]. destruct (HT Ha) as [l [_ [Hp Ho]]].
  assert (Hnd : NoDup l) by (eapply Permutation_NoDup; [symmetry; exact Hp|apply Hwf]).
  assert (Hlt : forall x y, path g x y -> pos l x < pos l y) by (intros x y H; apply pos_before; [exact Hnd|apply (order_path g l Hnd Ho); exact H]).
  intros x y. split.
  - induction 1 as [a b [Hb Hab]|a b c _ IH1 _ IH2]; [|eapply t_trans; eassumption]. apply t_step. rewrite He in Hb. split; [exact Hb|]. apply Hd in Hab; [apply Hab|exact Hb].
  - assert (X : forall k x y, path g x y -> pos l y - pos l x <= k -> path g' x y).
    { induction k as [|k IH]; intros a b Hab Hk; [apply Hlt in Hab; lia|].
      induction Hab as [a b [Hb Hab]|a b c H1 IH1 H2 IH2].
      - destruct (dep_split (path g a) (fun z => path_dec g a z Hwf Ha) (dep g b)) as [[d' [Hd' Hp']]|N].
        + pose proof (Hlt _ _ Hp') as L1. assert (Hq : path g d' b) by (apply t_step; split; assumption). pose proof (Hlt _ _ Hq) as L2.
          eapply t_trans; [apply (IH a d' Hp'); lia|apply (IH d' b Hq); lia].
        + apply t_step. split; [rewrite He; exact Hb|]. apply Hd; [exact Hb|]. split; assumption.
      - pose proof (Hlt _ _ H1). pose proof (Hlt _ _ H2). eapply t_trans; [apply IH1|apply IH2]; lia. }
    intros H. eapply X; [exact H|apply le_n].
Qed.
Lemma reduced_minimal g g' : reduced g g' -> forall d e, edge g' d e -> forall x, path g d x -> path g x e -> False.
Proof.
  intros [He Hd] d e [Hin Hde] x P1 P2. rewrite He in Hin. apply Hd in Hde; [|exact Hin]. destruct Hde as [_ N]. apply N.
  apply clos_trans_tn1 in P2. inversion P2 as [E|y z [_ E] P3]; subst.
  - exists x. split; [apply H|exact P1].
  - exists y. split; [exact E|]. eapply t_trans; [exact P1|]. apply clos_tn1_trans. exact P3.
Qed.
Lemma reduced_only_implied g g' : wf g -> acyclic g -> reduced g g' -> forall d e, edge g d e -> ~ edge g' d e -> exists x, path g d x /\ path g x e.
Proof.
  intros Hwf Ha [He Hd] d e [Hin Hde] N.
  destruct (dep_split (path g d) (fun z => path_dec g d z Hwf Ha) (dep g e)) as [[d' [Hd' Hp]]|N'].
  - exists d'. split; [exact Hp|]. apply t_step. split; assumption.
  - exfalso. apply N. split; [rewrite He; exact Hin|]. apply Hd; [exact Hin|]. split; assumption.
Qed.
