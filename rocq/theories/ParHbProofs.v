(** What the caller and the tasks of the parallel path know. *)
From Verif Require Import GraphModel GraphSpec TopoProofs StaticModel StaticProofs StatusProofs DynModel DynInv DynProofs DynTerm FastModel ParProofs HbSpec HbModel HbProofs ParHbModel.
From Coq Require Import Lia Permutation.
Local Open Scope nat_scope.

(** ** Lists side by side *)
Lemma combine_remove {A B} : forall i (a : list A) (b : list B), combine (remove_nth i a) (remove_nth i b) = remove_nth i (combine a b).
Proof. induction i as [|i IH]; intros [|x a] [|y b]; cbn [remove_nth combine]; try reflexivity; [now destruct a|now rewrite IH]. Qed.
Lemma combine_replace {A B} : forall i (a : list A) (b : list B) t y, nth_error a i = Some t -> combine a (replace_nth i y b) = replace_nth i (t, y) (combine a b).
Proof. induction i as [|i IH]; intros [|x a] [|z b] t y H; cbn [replace_nth combine nth_error] in *; try discriminate; try reflexivity; [now injection H as ->|f_equal; now apply IH]. Qed.
Lemma combine_nth_error {A B} : forall i (a : list A) (b : list B) x y, nth_error a i = Some x -> nth_error b i = Some y -> nth_error (combine a b) i = Some (x, y).
Proof. induction i as [|i IH]; intros [|x0 a] [|y0 b] x y H1 H2; cbn [nth_error combine] in *; try discriminate; [congruence|now apply IH]. Qed.
Lemma in_remove_keep {A} i (l : list A) a x : nth_error l i = Some a -> In x l -> x = a \/ In x (remove_nth i l).
Proof. intros H Hx. apply (Permutation_in _ (nth_error_remove i l a H)) in Hx. destruct Hx as [<-|Hx]; auto. Qed.
Lemma in_replace_keep {A} i (l : list A) a y x : nth_error l i = Some a -> In x l -> x = a \/ In x (replace_nth i y l).
Proof.
  intros H Hx. destruct (in_remove_keep i l a x H Hx) as [E|E]; [now left|right]. apply (Permutation_in _ (Permutation_sym (replace_nth_perm i l a y H))). now right.
Qed.
Lemma in_replace_new {A} i (l : list A) a y : nth_error l i = Some a -> In y (replace_nth i y l).
Proof. intros H. apply (Permutation_in _ (Permutation_sym (replace_nth_perm i l a y H))). now left. Qed.
Lemma combine_app {A B} (a1 a2 : list A) (b1 b2 : list B) : length a1 = length b1 -> combine (a1 ++ a2) (b1 ++ b2) = combine a1 b1 ++ combine a2 b2.
Proof. revert b1. induction a1 as [|x a1 IH]; intros [|y b1] H; try discriminate; [reflexivity|]. cbn [app combine]. now rewrite IH by (now injection H). Qed.

(** The call, and what the caller wrote to the status since. *)
Definition KC (m : hlog) (P : list nat) : Prop := In 0 P /\ forall w, nth_error m w = Some (0, HNote NWrite) -> In w P.
Definition Old (m : hlog) : Prop := forall w, nth_error m w <> Some (0, HNote NWrite).
Definition okp (m : hlog) (P : list nat) (o : pop) : Prop := match o with PCheck _ | PNotify => KC m P \/ Old m | _ => KC m P end.
Definition counts (e : nat) (o : pop) : Prop := match o with PErr x _ | PCount x => x = e | _ => False end.

Record PK (m : hlog) (A : list (nat * pop)) (T : list nat) (k : nat) : Prop := {
  pk_call : exists q, m = (0, HNote NCall) :: q;
  pk_act : forall t o, In (t, o) A -> t <> 0 /\ okp m (kt (know m) t) o;
  pk_task : forall x, In x T -> x <> 0 /\ x < k /\ KC m (kl (know m) (HTask x));
  pk_k : k <> 0;
  pk_fin : forall i e r, at_ m i (NFinish e r) -> In i (kl (know m) HFin) \/ exists t o, In (t, o) A /\ counts e o /\ In i (kt (know m) t);
  pk_hb0 : forall j t n, nth_error m j = Some (t, HNote n) -> n <> NCall -> n <> NRead -> n <> NWrite -> happens_before m 0 j;
  pk_w : forall j t n w, nth_error m j = Some (t, HNote n) -> nth_error m w = Some (0, HNote NWrite) -> w <> j -> happens_before m w j \/ happens_before m j w
}.

Lemma nth_snoc_cases {A} (m ext : list A) i x : nth_error (m ++ ext) i = Some x -> nth_error m i = Some x \/ exists k, i = length m + k /\ nth_error ext k = Some x.
Proof.
  intros H. destruct (Nat.lt_ge_cases i (length m)) as [L|L]; [left; now rewrite nth_error_app1 in H|right]. exists (i - length m). split; [lia|]. now rewrite nth_error_app2 in H.
Qed.
Lemma KC_mono m ext P P' : incl P P' -> (forall k, nth_error ext k <> Some (0, HNote NWrite)) -> KC m P -> KC (m ++ ext) P'.
Proof. intros I N [H1 H2]. split; [now apply I|]. intros w Hw. destruct (nth_snoc_cases _ _ _ _ Hw) as [E|(k & _ & E)]; [apply I; now apply H2|now apply N in E]. Qed.
Lemma Old_mono m ext : (forall k, nth_error ext k <> Some (0, HNote NWrite)) -> Old m -> Old (m ++ ext).
Proof. intros N O w Hw. destruct (nth_snoc_cases _ _ _ _ Hw) as [E|(k & _ & E)]; [now apply O in E|now apply N in E]. Qed.
Lemma okp_mono m ext P P' o : incl P P' -> (forall k, nth_error ext k <> Some (0, HNote NWrite)) -> okp m P o -> okp (m ++ ext) P' o.
Proof. intros I N. pose proof (KC_mono m ext P P' I N). destruct o; cbn [okp]; auto; (intros [H1|H1]; [left; auto|right; now apply Old_mono]). Qed.

Lemma PK_ext m ext A A' T T' k k' : PK m A T k ->
  (forall j, nth_error ext j <> Some (0, HNote NWrite)) ->
  (forall t, ~ In (t, HStore HFin) ext) -> (forall t x, In x T -> ~ In (t, HStore (HTask x)) ext) ->
  (forall t o, In (t, o) A' -> t <> 0 /\ ((exists o0, In (t, o0) A /\ forall m P, okp m P o0 -> okp m P o) \/ KC (m ++ ext) (kt (know (m ++ ext)) t))) ->
  (forall x, In x T' -> In x T \/ x <> 0 /\ x < k' /\ KC (m ++ ext) (kl (know (m ++ ext)) (HTask x))) -> k <= k' ->
  (forall i e t o, In (t, o) A -> counts e o -> In i (kt (know m) t) -> In i (kl (know (m ++ ext)) HFin) \/ exists o', In (t, o') A' /\ counts e o') ->
  (forall j e r t, nth_error ext j = Some (t, HNote (NFinish e r)) -> exists o', In (t, o') A' /\ counts e o') ->
  (forall j t n, nth_error ext j = Some (t, HNote n) -> t = 0 \/ KC m (kt (know m) t) \/ Old m /\ n = NRead) ->
  PK (m ++ ext) A' T' k'.
Proof.
  intros [Ic Ia It Ik If Ih Iw] Nw Nf Nt Ha Ht Lk Hc Hf Hn.
  assert (Z0 : In 0 (kt (know m) 0)) by (destruct Ic as [q ->]; apply (know_own _ 0 0 (HNote NCall)); reflexivity).
  assert (Zm : nth_error m 0 = Some (0, HNote NCall)) by (destruct Ic as [q ->]; reflexivity).
  assert (Pos : forall j t a, nth_error ext j = Some (t, a) -> nth_error (m ++ ext) (length m + j) = Some (t, a)) by (intros j t a E; rewrite nth_error_app2 by lia; now replace (length m + j - length m) with j by lia).
  assert (HB : forall j t a i, nth_error ext j = Some (t, a) -> In i (kt (know m) t) -> happens_before (m ++ ext) i (length m + j)) by (intros j t a i E Hi; eapply know_hb; [exact Hi|lia|apply Pos; exact E]).
  constructor.
  - destruct Ic as [q ->]. exists (q ++ ext). reflexivity.
  - intros t o H. destruct (Ha t o H) as [H0 [(o0 & H1 & H2)|H1]]; (split; [exact H0|]).
    + apply H2. eapply okp_mono; [apply know_t|exact Nw|]. apply (Ia t o0 H1).
    + destruct o; cbn [okp]; auto.
  - intros x Hx. destruct (Ht x Hx) as [H|H]; [|exact H]. destruct (It x H) as (H1 & H2 & H3). split; [exact H1|]. split; [lia|]. eapply KC_mono; [|exact Nw|exact H3]. apply know_l. intros t. now apply Nt.
  - lia.
  - intros i e r [t Hi]. destruct (nth_snoc_cases _ _ _ _ Hi) as [E|(j & -> & E)].
    + destruct (If i e r) as [H|(t' & o & H1 & H2 & H3)]; [now exists t|left; now apply (know_l m ext HFin Nf)|].
      destruct (Hc i e t' o H1 H2 H3) as [H|(o' & H4 & H5)]; [now left|right]. exists t', o'. split; [exact H4|]. split; [exact H5|]. now apply know_t.
    + right. destruct (Hf j e r t E) as (o' & H1 & H2). exists t, o'. split; [exact H1|]. split; [exact H2|]. eapply know_own. apply Pos. exact E.
  - intros j t n Hj N1 N2 N3. destruct (nth_snoc_cases _ _ _ _ Hj) as [E|(q & -> & E)]; [apply hb_app; eapply Ih; eassumption|].
    destruct (Hn q t n E) as [->|[[H _]|[_ H]]]; [| |contradiction]; eapply HB; eauto.
  - intros j t n w Hj Hw D. destruct (nth_snoc_cases _ _ _ _ Hw) as [Ew|(q & _ & Ew)]; [|now apply Nw in Ew].
    destruct (nth_snoc_cases _ _ _ _ Hj) as [E|(q & -> & E)].
    + destruct (Iw j t n w E Ew D) as [H|H]; [left|right]; now apply hb_app.
    + left. destruct (Hn q t n E) as [->|[[_ H]|[H _]]]; [|eapply HB; eauto|now apply H in Ew].
      eapply HB; [exact E|]. eapply know_own. exact Ew.
Qed.
(** A log of the caller alone. *)
Lemma PK_alone q k : (forall ev, In ev q -> fst ev = 0) -> (forall i e r, ~ at_ ((0, HNote NCall) :: q) i (NFinish e r)) -> k <> 0 -> PK ((0, HNote NCall) :: q) [] [] k.
Proof.
  intros H N Hk. set (m := (0, HNote NCall) :: q).
  assert (A : forall i t a, nth_error m i = Some (t, a) -> t = 0). { intros [|i] t a E; [now injection E as <-|]. cbn [m nth_error] in E. apply nth_error_In in E. now apply H in E. }
  assert (O : forall i j x y, i < j -> nth_error m i = Some (0, x) -> nth_error m j = Some (0, y) -> happens_before m i j) by (intros; eapply hb_thread; eassumption).
  constructor.
  - now exists q.
  - intros t o [].
  - intros x [].
  - exact Hk.
  - intros i e r Hi. now apply N in Hi.
  - intros j t n Hj N1 _ _. pose proof (A _ _ _ Hj). subst t. eapply O; [|reflexivity|exact Hj]. destruct j; [injection Hj as <-; contradiction|lia].
  - intros j t n w Hj Hw D. pose proof (A _ _ _ Hj). subst t. destruct (Nat.lt_trichotomy w j) as [L|[L|L]]; [left; eapply O; eassumption|contradiction|right; eapply O; eassumption].
Qed.
(** The log starts again; actions of the last run that are left over only look at the status or notify. *)
Lemma PK_call A k : (forall t o, In (t, o) A -> t <> 0 /\ quiet o) -> k <> 0 -> PK [(0, HNote NCall)] A [] k.
Proof.
  intros H Hk. assert (N : Old [(0, HNote NCall)]) by (intros [|[|w]]; discriminate).
  destruct (PK_alone [] k) as [Ic _ It Ik If Ih Iw]; [intros ev []|intros [|[|i]] e r [t X]; discriminate X|exact Hk|]. constructor; try assumption.
  - intros t o Ho. destruct (H t o Ho) as [H1 H2]. split; [exact H1|]. destruct o; cbn [quiet okp] in *; try contradiction; now right.
  - intros i e r [t Hi]. destruct i as [|[|i]]; discriminate Hi.
Qed.

Definition act_next (i t : nat) (A : list (nat * pop)) (next : option pop) : list (nat * pop) := match next with Some o' => replace_nth i (t, o') A | None => remove_nth i A end.
Lemma in_by t l j u a : nth_error (by_ t l) j = Some (u, a) -> u = t /\ In a l.
Proof. intros H. apply nth_error_In in H. unfold by_ in H. apply in_map_iff in H as (x & E & Hx). injection E as -> ->. auto. Qed.
Lemma in_by2 t l u a : In (u, a) (by_ t l) -> u = t /\ In a l.
Proof. unfold by_. intros H. apply in_map_iff in H as (x & E & Hx). injection E as -> ->. auto. Qed.

Lemma PK_work c m A T k i t o r num st tr num' st' tr' next nt : PK m A T k -> nth_error A i = Some (t, o) -> pop_sem c num st tr o r = (num', st', tr', next, nt) ->
  PK (m ++ by_ t (pop_mem c o r)) (act_next i t A next) T k.
Proof.
  intros I En Es. pose proof (nth_error_In _ _ En) as Hin. destruct (pk_act _ _ _ _ I t o Hin) as [Ht0 Ho].
  assert (Keep : forall x, In x A -> x = (t, o) \/ In x (act_next i t A next)).
  { intros x Hx. unfold act_next. destruct next as [o'|]; [apply (in_replace_keep i A (t, o) (t, o') x En Hx)|apply (in_remove_keep i A (t, o) x En Hx)]. }
  assert (New : forall o', next = Some o' -> In (t, o') (act_next i t A next)) by (intros o' ->; apply (in_replace_new i A (t, o) (t, o') En)).
  assert (Back : forall x, In x (act_next i t A next) -> In x A \/ exists o', next = Some o' /\ x = (t, o')).
  { intros x Hx. unfold act_next in Hx. destruct next as [o'|]; [apply in_replace_nth in Hx as [->|Hx]; eauto|left; now apply in_remove_nth in Hx]. }
  assert (Im : forall o', next = Some o' -> forall m P, okp m P o -> okp m P o').
  { intros o' E m0 P. destruct o as [e|e|e|e r0|e|n|]; cbn [pop_sem] in Es; injection Es as _ _ _ E2 _; subst next; try discriminate E; cbn [okp]; auto.
    - destruct (isErr st); [discriminate E|]. injection E as <-. auto.
    - injection E as <-. auto.
    - injection E as <-. destruct (isErr r); auto.
    - injection E as <-. auto.
    - injection E as <-. cbn [okp]. auto.
    - destruct (Nat.leb _ n || isErr st); [|discriminate E]. injection E as <-. auto. }
  eapply PK_ext; [exact I|..].
  - intros j E. apply in_by in E as [E _]. congruence.
  - intros u E. apply in_by2 in E as [_ E]. destruct o; cbn [pop_mem] in E; try (destruct (Nat.leb _ n)); cbn [In] in E; repeat destruct E as [E|E]; try discriminate E; exact E.
  - intros u x _ E. apply in_by2 in E as [_ E]. destruct o; cbn [pop_mem] in E; try (destruct (Nat.leb _ n)); cbn [In] in E; repeat destruct E as [E|E]; try discriminate E; exact E.
  - intros u o' H. destruct (Back _ H) as [H1|(o1 & E & H1)].
    + split; [apply (pk_act _ _ _ _ I u o' H1)|]. left. now exists o'.
    + injection H1 as -> ->. split; [exact Ht0|]. left. exists o. split; [exact Hin|]. now apply Im.
  - intros x Hx. now left.
  - lia.
  - intros j e u o1 H1 H2 H3. destruct (Keep _ H1) as [E|E]; [|right; now exists o1]. injection E as -> ->.
    destruct o as [x|x|x|x r0|x|n|]; cbn [counts] in H2; try contradiction; subst x; cbn [pop_sem] in Es; injection Es as _ _ _ <- _.
    + right. exists (PCount e). split; [now apply New|reflexivity].
    + left. cbn [pop_mem by_ map]. rewrite know_snoc. unfold kstep. cbn [fst snd kl]. rewrite set_l_eq. right. apply in_or_app. now right.
  - intros j e r1 u E. apply in_by in E as [-> E]. destruct o as [x|x|x|x r0|x|n|]; cbn [pop_mem] in E; try (destruct (Nat.leb _ n)); cbn [In] in E; repeat destruct E as [E|E]; try discriminate E; try contradiction.
    injection E as <- <-. cbn [pop_sem] in Es. injection Es as _ _ _ <- _. eexists. split; [now apply New|]. now destruct (isErr r).
  - intros j u n E. apply in_by in E as [-> E]. right. destruct o as [x|x|x|x r0|x|q|]; cbn [okp] in Ho; auto.
    + cbn [pop_mem] in E. destruct (Nat.leb _ q); [destruct E|]. destruct E as [E|[]]. injection E as <-. destruct Ho as [Ho|Ho]; auto.
    + cbn [pop_mem] in E. destruct E as [E|[E|[]]]; discriminate E.
Qed.
Lemma PK_caller m A T k ext : PK m A T k -> (forall a, In a ext -> match a with HNote NRead | HNote (NRet _) | HLoad _ | HLock _ | HUnlock _ => True | _ => False end) -> PK (m ++ by_ 0 ext) A T k.
Proof.
  intros I H. eapply PK_ext; [exact I|..].
  - intros j E. apply in_by in E as [_ E]. now apply H in E.
  - intros u E. apply in_by2 in E as [_ E]. now apply H in E.
  - intros u x _ E. apply in_by2 in E as [_ E]. now apply H in E.
  - intros t o Ho. split; [apply (pk_act _ _ _ _ I t o Ho)|]. left. now exists o.
  - intros x Hx. now left.
  - lia.
  - intros i e t o H1 H2 _. right. now exists o.
  - intros j e r t E. apply in_by in E as [_ E]. now apply H in E.
  - intros j t n E. apply in_by in E as [-> _]. now left.
Qed.
(** The counter is set to 0 before any element is handed out. *)
Lemma PK_zero m A k : PK m A [] k -> (forall t o, In (t, o) A -> quiet o) -> (forall i e r, ~ at_ m i (NFinish e r)) -> PK (m ++ by_ 0 [HStore HFin]) A [] k.
Proof.
  intros I Q N. set (ext := by_ 0 [HStore HFin]). assert (Nw : forall j, nth_error ext j <> Some (0, HNote NWrite)) by (intros [|[|j]]; discriminate).
  destruct I as [Ic Ia It Ik If Ih Iw].
  assert (NN : forall j t n, nth_error (m ++ ext) j = Some (t, HNote n) -> nth_error m j = Some (t, HNote n)).
  { intros j t n E. destruct (nth_snoc_cases _ _ _ _ E) as [E1|(q & _ & E1)]; [exact E1|]. destruct q as [|[|q]]; discriminate E1. }
  constructor.
  - destruct Ic as [q ->]. exists (q ++ ext). reflexivity.
  - intros t o Ho. destruct (Ia t o Ho) as [H1 H2]. split; [exact H1|]. eapply okp_mono; [apply know_t|exact Nw|exact H2].
  - intros x [].
  - exact Ik.
  - intros i e r [t Hi]. apply NN in Hi. destruct (N i e r). now exists t.
  - intros j t n Hj N1 N2 N3. apply hb_app. eapply Ih; [apply NN; exact Hj|assumption..].
  - intros j t n w Hj Hw D. apply NN in Hj. apply NN in Hw. destruct (Iw j t n w Hj Hw D) as [X|X]; [left|right]; now apply hb_app.
Qed.
Lemma PK_push m A T k : PK m A T k -> PK (m ++ by_ 0 [HStore (HTask k)]) A (T ++ [k]) (S k).
Proof.
  intros I. pose proof (pk_call _ _ _ _ I) as [q Eq]. eapply PK_ext; [exact I|..].
  - intros [|[|j]]; discriminate.
  - intros u [E|[]]. discriminate E.
  - intros u x Hx [E|[]]. injection E as _ ->. destruct (pk_task _ _ _ _ I x Hx). lia.
  - intros t o Ho. split; [apply (pk_act _ _ _ _ I t o Ho)|]. left. now exists o.
  - intros x Hx. apply in_app_or in Hx. destruct Hx as [Hx|[<-|[]]]; [now left|right]. split; [apply (pk_k _ _ _ _ I)|]. split; [lia|].
    assert (S0 : incl (kt (know m) 0) (kl (know (m ++ by_ 0 [HStore (HTask k)])) (HTask k))) by (intros i Hi; cbn [by_ map]; rewrite know_snoc; unfold kstep; cbn [fst snd kl]; rewrite set_l_eq; now right).
    split; [apply S0; subst m; apply (know_own _ 0 0 (HNote NCall)); reflexivity|]. intros w Hw. apply S0. destruct (nth_snoc_cases _ _ _ _ Hw) as [E|([|[|j]] & _ & E)]; try discriminate E. eapply know_own. exact E.
  - lia.
  - intros i e t o H1 H2 _. right. now exists o.
  - intros [|[|j]] e r t E; discriminate E.
  - intros [|[|j]] t n E; discriminate E.
Qed.
Lemma PK_pick m A T k i x e : PK m A T k -> nth_error T i = Some x -> PK (m ++ [(x, HLoad (HTask x))]) (A ++ [(x, PTest e)]) (remove_nth i T) k.
Proof.
  intros I En. destruct (pk_task _ _ _ _ I x (nth_error_In _ _ En)) as (X0 & X1 & X2). eapply PK_ext; [exact I|..].
  - intros [|[|j]]; discriminate.
  - intros u [E|[]]. discriminate E.
  - intros u y Hx [E|[]]. discriminate E.
  - intros t o Ho. apply in_app_or in Ho. destruct Ho as [Ho|[Ho|[]]]; [split; [apply (pk_act _ _ _ _ I t o Ho)|]; left; now exists o|]. injection Ho as <- <-. split; [exact X0|right].
    eapply KC_mono; [|intros [|[|j]]; discriminate|exact X2]. intros j Hj. rewrite know_snoc. unfold kstep. cbn [fst snd kt]. rewrite set_t_eq. right. apply in_or_app. now left.
  - intros y Hy. left. now apply in_remove_nth in Hy.
  - lia.
  - intros j y t o H1 H2 _. right. exists o. split; [apply in_or_app; now left|exact H2].
  - intros [|[|j]] y r t E; discriminate E.
  - intros [|[|j]] t n E; discriminate E.
Qed.

Section Par.
Context (c : pcfg) (HL : NoDup (p_els c)) (Hrows : concat (p_rows c) = p_els c).

Record PRun (s : pst) (m : hlog) (tasks thr : list nat) (k : nat) : Prop := {
  pr_k : PK m (combine thr (p_act s)) tasks k;
  pr_tr : trace_of m = p_tr s;
  pr_prep : p_main s = QPrep -> isOK (p_stat s) = false -> m = [(0, HNote NCall)] /\ thr = [] /\ tasks = [];
  pr_all : p_main s = QRet -> isErr (p_stat s) = true \/ forall i e r, at_ m i (NFinish e r) -> In i (kt (know m) 0);
  pr_ret : forall j st, at_ m j (NRet st) -> p_main s = QIdle /\ p_out s = Some st /\ (isErr st = false -> forall i e r, at_ m i (NFinish e r) -> happens_before m i j);
  pr_wr : forall j t, nth_error m j = Some (t, HNote NWrite) -> t = 0 \/ exists e r, In (GFinish e r) (p_tr s) /\ (code r < 0)%Z
}.
Record PHI (h : phst) : Prop := {
  phi_inv : PInv c (ph_s h);
  phi_pool : length (ph_tasks h) = length (p_pool (ph_s h));
  phi_act : length (ph_thr h) = length (p_act (ph_s h));
  phi_next : ph_next h <> 0;
  phi_thr : forall t, In t (ph_thr h) -> t <> 0;
  phi_run : (ph_log h = [] /\ p_main (ph_s h) = QIdle /\ p_out (ph_s h) = None) \/ PRun (ph_s h) (ph_log h) (ph_tasks h) (ph_thr h) (ph_next h)
}.
Lemma PHI_init : PHI ph_init.
Proof. constructor; try reflexivity; [apply PInv_init|discriminate|intros t []|left; repeat split]. Qed.

(** All that an element did is behind the counter, once all are counted. *)
Lemma counted s m tasks thr k : PInv c s -> PRun s m tasks thr k -> PI c (p_num s) (p_stat s) (p_tr s) (bag s) -> length (p_els c) <= p_num s -> forall i e r, at_ m i (NFinish e r) -> In i (kl (know m) HFin).
Proof.
  intros I R P L i e r Hi. destruct (pk_fin _ _ _ _ (pr_k _ _ _ _ _ R) i e r Hi) as [H|(t & o & H1 & H2 & _)]; [exact H|]. exfalso.
  destruct (PI_full c HL _ _ _ _ P L) as (_ & _ & _ & Q). apply in_combine_r in H1. assert (Qo : quiet o) by (apply Q; unfold bag; apply in_or_app; now left). destruct o; cbn in *; contradiction.
Qed.
Lemma at_tr m i e r : at_ m i (NFinish e r) -> In (GFinish e r) (trace_of m).
Proof. intros [t H]. apply nth_error_In in H. unfold trace_of. apply in_flat_map. exists (t, HNote (NFinish e r)). split; [exact H|now left]. Qed.
Lemma at_cut m ext i n : at_ (m ++ ext) i n -> at_ m i n \/ exists k t, i = length m + k /\ nth_error ext k = Some (t, HNote n).
Proof. intros [t H]. destruct (nth_snoc_cases _ _ _ _ H) as [E|(k & E1 & E2)]; [left; now exists t|right; eauto]. Qed.

Lemma trace_by0 t l : (forall n, In (HNote n) l -> n = NRead \/ n = NWrite \/ exists st, n = NRet st) -> trace_of (by_ t l) = [].
Proof.
  induction l as [|a l IH]; intros H; [reflexivity|]. unfold trace_of, by_ in *. cbn [map flat_map]. rewrite IH by (intros n Hn; apply H; now right).
  unfold ev_of. cbn [snd]. destruct a as [n| | | | | |]; try reflexivity. destruct (H n (or_introl eq_refl)) as [->|[->|[st ->]]]; reflexivity.
Qed.

Lemma PHI_work h i r s' h' : PHI h -> pstep c (ph_s h) (LWork i r) = Some s' -> PInv c s' -> phstep c h (LWork i r) = Some h' -> PHI h'.
Proof.
  intros [Iv Lp La Nk Nt Run] E Iv' Eh. pose proof E as E0. unfold phstep in Eh. rewrite E in Eh. cbn [pstep] in E.
  destruct (nth_error (p_act (ph_s h)) i) as [o|] eqn:En; [|discriminate]. destruct (pop_enabled (p_main (ph_s h)) o) eqn:Pe; [|discriminate].
  destruct (nth_error (ph_thr h) i) as [t|] eqn:Et; [|discriminate]. set (s := ph_s h) in *.
  destruct (pop_sem c (p_num s) (p_stat s) (p_tr s) o r) as [[[[num st] tr] next] nt] eqn:Es. injection E as <-. injection Eh as <-.
  set (act' := match next with Some o' => replace_nth i o' (p_act s) | None => remove_nth i (p_act s) end) in *.
  set (thr' := match next with Some _ => ph_thr h | None => remove_nth i (ph_thr h) end).
  match goal with |- PHI (mkPH _ _ _ ?x _) => replace x with thr' end.
  2: { cbn [p_act]. unfold act', thr'. destruct next as [o'|]; [rewrite length_replace, Nat.ltb_irrefl; reflexivity|]. pose proof (length_remove i _ o En). destruct (Nat.ltb_spec (length (remove_nth i (p_act s))) (length (p_act s))); [reflexivity|lia]. }
  assert (Ecomb : combine thr' act' = act_next i t (combine (ph_thr h) (p_act s)) next).
  { unfold thr', act', act_next. destruct next as [o'|]; [now apply combine_replace|apply combine_remove]. }
  constructor; cbn [ph_s ph_log ph_tasks ph_thr ph_next]; [exact Iv'|exact Lp| |exact Nk| |].
  - cbn [p_act]. unfold thr', act'. destruct next as [o'|]; [rewrite length_replace; exact La|]. pose proof (length_remove i _ o En). pose proof (length_remove i _ t Et). lia.
  - intros x Hx. unfold thr' in Hx. apply Nt. destruct next; [exact Hx|now apply in_remove_nth in Hx].
  - destruct Run as [(_ & Em & Eo)|R].
    { exfalso. pose proof (i_phase c s Iv) as P. unfold pphase_ok in P. rewrite Em, Eo in P. destruct P as (_ & _ & P). unfold bag in P. apply app_eq_nil in P as [P _]. rewrite P in En. now destruct i. }
    right. pose proof (combine_nth_error i _ _ _ _ Et En) as Ec.
    pose proof (PK_work c _ _ _ _ i t o r _ _ _ _ _ _ next nt (pr_k _ _ _ _ _ R) Ec Es) as K. fold s in K.
    assert (Ht0 : t <> 0) by (apply Nt; eapply nth_error_In; exact Et).
    (* all is counted: nothing but quiet actions *)
    assert (Qu : length (p_els c) <= p_num s -> PI c (p_num s) (p_stat s) (p_tr s) (bag s) -> quiet o).
    { intros L P. destruct (PI_full c HL _ _ _ _ P L) as (_ & _ & _ & Q). apply Q. unfold bag. apply in_or_app. left. eapply nth_error_In. exact En. }
    assert (Qe : quiet o -> forall j u n, nth_error (by_ t (pop_mem c o r)) j = Some (u, HNote n) -> n = NRead).
    { intros Q j u n Hj. apply in_by in Hj as [_ Hj]. destruct o; cbn in Q; try contradiction; cbn [pop_mem] in Hj; [destruct (Nat.leb _ n0); [destruct Hj|destruct Hj as [Hj|[]]; now injection Hj as <-]|destruct Hj as [Hj|[Hj|[]]]; discriminate Hj]. }
    constructor.
    + cbn [p_act]. rewrite Ecomb. exact K.
    + cbn [p_tr]. rewrite trace_of_app, (pr_tr _ _ _ _ _ R). fold s. destruct o as [e|e|e|e r0|e|n|]; cbn [pop_sem] in Es; injection Es as _ _ <- _ _; cbn [pop_mem]; try (destruct (Nat.leb _ n)); cbn; rewrite ?app_nil_r; reflexivity.
    + cbn [p_main p_stat]. intros Em Ok. exfalso. assert (Em' : p_main s = QPrep) by (destruct (p_main s); cbn in Em; try discriminate Em; [reflexivity|destruct nt; discriminate Em]).
      pose proof (i_phase c s Iv) as P. unfold pphase_ok in P. rewrite Em' in P. destruct P as (_ & _ & Q).
      assert (Qo : quiet o) by (apply Q; unfold bag; apply in_or_app; left; eapply nth_error_In; exact En).
      assert (Est : st = p_stat s) by (destruct o; cbn in Qo; try contradiction; cbn [pop_sem] in Es; injection Es as _ <- _ _ _; reflexivity).
      rewrite Est in Ok. destruct (pr_prep _ _ _ _ _ R Em' Ok) as (_ & X & _). rewrite X in Et. now destruct i.
    + cbn [p_main p_stat]. intros Em. assert (Em' : p_main s = QRet) by (destruct (p_main s); cbn in Em; try discriminate Em; [destruct nt; discriminate Em|reflexivity]).
      pose proof (i_phase c s Iv) as P. unfold pphase_ok in P. rewrite Em' in P. destruct P as (P & D).
      destruct (pr_all _ _ _ _ _ R Em') as [X|X].
      * left. fold s in X. destruct o; cbn [pop_sem] in Es; injection Es as _ <- _ _ _; try exact X. rewrite st_plus_isErr, X. reflexivity.
      * destruct D as [D|D]; [|left; destruct o; cbn [pop_sem] in Es; injection Es as _ <- _ _ _; try exact D; rewrite st_plus_isErr, D; reflexivity].
        right. intros j e r1 Hj. apply know_t. destruct (at_cut _ _ _ _ Hj) as [A|(k & u & _ & E)]; [eapply X; exact A|]. apply (Qe (Qu D P)) in E. discriminate E.
    + intros j sr Hj. cbn [p_main p_out].
      assert (NR : forall k u n, nth_error (by_ t (pop_mem c o r)) k = Some (u, HNote n) -> n <> NRet sr).
      { intros k u n H. apply in_by in H as [_ H]. destruct o; cbn [pop_mem] in H; try (destruct (Nat.leb _ n0)); cbn [In] in H; repeat destruct H as [H|H]; try discriminate H; try contradiction; injection H as <-; discriminate. }
      destruct (at_cut _ _ _ _ Hj) as [A|(k & u & _ & E)]; [|now apply NR in E].
      destruct (pr_ret _ _ _ _ _ R j sr A) as (M1 & M2 & M3). fold s in M1, M2. split; [rewrite M1; reflexivity|]. split; [exact M2|]. intros Oks i0 e r1 Hi. apply hb_app.
      destruct (at_cut _ _ _ _ Hi) as [A1|(k & u & _ & E)]; [eapply M3; eassumption|]. exfalso.
      pose proof (i_phase c s Iv) as P. unfold pphase_ok in P. rewrite M1, M2 in P. destruct P as (P & Ex & D). destruct D as [D|D]; [|congruence]. apply (Qe (Qu D P)) in E. discriminate E.
    + intros j u Hj. cbn [p_tr]. destruct (nth_snoc_cases _ _ _ _ Hj) as [A|(k & _ & E)].
      * destruct (pr_wr _ _ _ _ _ R j u A) as [X|(e & r1 & X1 & X2)]; [now left|right]. exists e, r1. split; [|exact X2]. fold s in X1. destruct o; cbn [pop_sem] in Es; injection Es as _ _ <- _ _; try exact X1; apply in_or_app; now left.
      * right. apply in_by in E as [_ E]. destruct o as [x|x|x|x r0|x|n|]; cbn [pop_mem] in E; try (destruct (Nat.leb _ n)); cbn [In] in E; repeat destruct E as [E|E]; try discriminate E; try contradiction.
        cbn [pop_sem] in Es. injection Es as _ _ <- _ _. exists x, r0.
        assert (W : wf_pop (p_els c) (p_tr s) (PErr x r0)).
        { assert (HoB : In (PErr x r0) (bag s)) by (unfold bag; apply in_or_app; left; eapply nth_error_In; exact En).
          destruct (p_main s) eqn:Em; pose proof (i_phase c s Iv) as P; unfold pphase_ok in P; rewrite Em in P; try exact (q_wf _ _ _ _ _ P _ HoB).
          - destruct (p_out s); [destruct P as [P _]; exact (q_wf _ _ _ _ _ P _ HoB)|]. destruct P as (_ & _ & P). rewrite P in HoB. destruct HoB.
          - destruct P as (_ & _ & P). destruct (P _ HoB).
          - destruct P as (_ & _ & P). destruct (P _ HoB).
          - destruct P as (P & _). exact (q_wf _ _ _ _ _ P _ HoB). }
        destruct W as [W1 W2]. split; [exact W2|exact W1].
Qed.

Lemma PRun_caller s m tasks thr k ext s' : PRun s m tasks thr k -> p_main s <> QIdle -> p_act s' = p_act s -> p_tr s' = p_tr s ->
  (forall a, In a ext -> match a with HNote NRead | HLoad _ | HLock _ | HUnlock _ => True | _ => False end) ->
  p_main s' <> QPrep -> (p_main s' = QRet -> isErr (p_stat s') = true \/ forall i e r, at_ m i (NFinish e r) -> In i (kt (know (m ++ by_ 0 ext)) 0)) ->
  PRun s' (m ++ by_ 0 ext) tasks thr k.
Proof.
  intros R Hm Ea Et H Hp Hr.
  assert (N : forall j u n, nth_error (by_ 0 ext) j = Some (u, HNote n) -> u = 0 /\ n = NRead). { intros j u n E. apply in_by in E as [-> E]. apply H in E. destruct n; try contradiction. auto. }
  constructor.
  - rewrite Ea. apply PK_caller; [apply (pr_k _ _ _ _ _ R)|]. intros a Ha. apply H in Ha. destruct a as [[]| | | | | |]; auto.
  - rewrite Et, trace_of_app, (pr_tr _ _ _ _ _ R), trace_by0, app_nil_r; [reflexivity|]. intros n Hn. apply H in Hn. destruct n; try contradiction. auto.
  - congruence.
  - intros E. destruct (Hr E) as [X|X]; [now left|right]. intros i e r Hi. destruct (at_cut _ _ _ _ Hi) as [A|(j & u & _ & E1)]; [eapply X; exact A|]. apply N in E1 as [_ E1]. discriminate E1.
  - intros j st Hj. destruct (at_cut _ _ _ _ Hj) as [A|(q & u & _ & E1)]; [destruct (pr_ret _ _ _ _ _ R j st A); contradiction|]. apply N in E1 as [_ E1]. discriminate E1.
  - intros j u Hj. rewrite Et. destruct (nth_snoc_cases _ _ _ _ Hj) as [A|(q & _ & E1)]; [now apply (pr_wr _ _ _ _ _ R j u)|]. apply N in E1 as [_ E1]. discriminate E1.
Qed.
Lemma load_known m i l ext : In i (kl (know m) l) -> In i (kt (know (m ++ by_ 0 (HLoad l :: ext))) 0).
Proof.
  intros H. change (by_ 0 (HLoad l :: ext)) with ([(0, HLoad l)] ++ by_ 0 ext). rewrite app_assoc. apply know_t. rewrite know_snoc. unfold kstep. cbn [fst snd kt]. rewrite set_t_eq. right. apply in_or_app. now left.
Qed.
Lemma pool_quiet s : (forall o, In o (bag s) -> quiet o) -> p_pool s = [] /\ forall o, In o (p_act s) -> quiet o.
Proof.
  intros Q. unfold bag in Q. split; [|intros o Ho; apply Q, in_or_app; now left]. destruct (p_pool s) as [|e l]; [reflexivity|]. exfalso. apply (Q (PTest e)). apply in_or_app. right. now left.
Qed.

Lemma PHI_main h r s' h' : PHI h -> pstep c (ph_s h) (LMain r) = Some s' -> PInv c s' -> phstep c h (LMain r) = Some h' -> PHI h'.
Proof.
  intros [Iv Lp La Nk Nt Run] E Iv' Eh. unfold phstep in Eh. rewrite E in Eh. cbn [pstep] in E. injection Eh as <-. set (s := ph_s h) in *.
  destruct Run as [(_ & Em & _)|R]; [rewrite Em in E; discriminate E|]. pose proof (i_phase c s Iv) as P. unfold pphase_ok in P.
  unfold pmain_mem. destruct (p_main s) as [| | |l|n| | | | | |] eqn:Em; try discriminate E.
  - (* QPrep *) injection E as <-. destruct P as (P1 & P2 & P3). constructor; cbn [ph_s ph_log ph_tasks ph_thr ph_next]; try assumption. right.
    destruct (isOK (p_stat s)) eqn:Ok.
    + eapply PRun_caller; [exact R|fold s; congruence|reflexivity|reflexivity| |discriminate|discriminate]. intros a [<-|[]]. exact I.
    + destruct (pr_prep _ _ _ _ _ R Em Ok) as (X1 & X2 & X3). rewrite X1, X2, X3.
      assert (B : forall ev, In ev (by_ 0 (HNote NRead :: map (fun e => HStore (HLeft e)) (p_els c) ++ [HNote NWrite])) -> fst ev = 0) by (intros [u a] H; apply in_by2 in H as [H _]; exact H).
      assert (F : forall n, In (HNote n) (HNote NRead :: map (fun e => HStore (HLeft e)) (p_els c) ++ [HNote NWrite]) -> n = NRead \/ n = NWrite).
      { intros n [H|H]; [left; now injection H as <-|]. apply in_app_or in H as [H|[H|[]]]; [apply in_map_iff in H as (x & H & _); discriminate H|right; now injection H as <-]. }
      assert (G : forall i n, at_ ([(0, HNote NCall)] ++ by_ 0 (HNote NRead :: map (fun e => HStore (HLeft e)) (p_els c) ++ [HNote NWrite])) i n -> n = NCall \/ n = NRead \/ n = NWrite).
      { intros i n H. destruct (at_cut _ _ _ _ H) as [[u A]|(j & u & _ & E1)]; [destruct i as [|[|i]]; try discriminate A; injection A as _ <-; now left|]. apply in_by in E1 as [_ E1]. right. now apply F. }
      constructor.
      * cbn [combine]. apply PK_alone; [exact B| |exact Nk]. intros i e r0 H. apply G in H. destruct H as [H|[H|H]]; discriminate H.
      * rewrite trace_of_app. rewrite trace_by0 by (intros n Hn; apply F in Hn; tauto). cbn [p_tr]. rewrite P2. reflexivity.
      * discriminate.
      * discriminate.
      * intros j st H. apply G in H. destruct H as [H|[H|H]]; discriminate H.
      * intros j u H. left. destruct (nth_snoc_cases _ _ _ _ H) as [A|(q & _ & E1)]; [destruct j as [|[|j]]; discriminate A|]. now apply in_by in E1 as [-> _].
  - (* QZero *) injection E as <-. destruct P as (P1 & P2 & P3). destruct (pool_quiet s P3) as [Q1 Q2]. rewrite Q1 in Lp. destruct (ph_tasks h) as [|x xs] eqn:Ets; [|discriminate Lp].
    constructor; cbn [ph_s ph_log ph_tasks ph_thr ph_next p_pool p_act]; try assumption; [now rewrite Q1|]. right.
    assert (NF : forall i e r0, ~ at_ (ph_log h) i (NFinish e r0)) by (intros i e r0 Hi; apply at_tr in Hi; rewrite (pr_tr _ _ _ _ _ R) in Hi; fold s in Hi; rewrite P2 in Hi; destruct Hi).
    assert (N : forall j u n, nth_error (by_ 0 [HStore HFin]) j <> Some (u, HNote n)) by (intros [|[|j]]; discriminate).
    constructor.
    + cbn [p_act]. apply PK_zero; [apply (pr_k _ _ _ _ _ R)| |exact NF]. intros t o Ho. apply in_combine_r in Ho. now apply Q2.
    + rewrite trace_of_app, (pr_tr _ _ _ _ _ R). cbn. now rewrite app_nil_r.
    + discriminate.
    + discriminate.
    + intros j st Hj. destruct (at_cut _ _ _ _ Hj) as [A|(q & u & _ & E1)]; [destruct (pr_ret _ _ _ _ _ R j st A) as [X _]; fold s in X; congruence|now apply N in E1].
    + intros j u Hj. cbn [p_tr]. destruct (nth_snoc_cases _ _ _ _ Hj) as [A|(q & _ & E1)]; [now apply (pr_wr _ _ _ _ _ R j u)|now apply N in E1].
  - (* QPush *) destruct l as [|e l]; injection E as <-.
    + constructor; cbn [ph_s ph_log ph_tasks ph_thr ph_next]; try assumption. right. eapply PRun_caller; [exact R|fold s; congruence|reflexivity|reflexivity|intros a []|discriminate|discriminate].
    + constructor; cbn [ph_s ph_log ph_tasks ph_thr ph_next]; try assumption; [cbn [p_pool]; rewrite !app_length; cbn [length]; lia|lia|]. right.
      assert (N : forall j u n, nth_error (by_ 0 [HStore (HTask (ph_next h))]) j <> Some (u, HNote n)) by (intros [|[|j]]; discriminate).
      constructor.
      * cbn [p_act]. apply PK_push. apply (pr_k _ _ _ _ _ R).
      * rewrite trace_of_app, (pr_tr _ _ _ _ _ R). cbn. now rewrite app_nil_r.
      * discriminate.
      * discriminate.
      * intros j st Hj. destruct (at_cut _ _ _ _ Hj) as [A|(q & u & _ & E1)]; [destruct (pr_ret _ _ _ _ _ R j st A) as [X _]; fold s in X; congruence|now apply N in E1].
      * intros j u Hj. cbn [p_tr]. destruct (nth_snoc_cases _ _ _ _ Hj) as [A|(q & _ & E1)]; [now apply (pr_wr _ _ _ _ _ R j u)|now apply N in E1].
  - (* QPoll *) destruct n as [|n]; injection E as <-; (constructor; cbn [ph_s ph_log ph_tasks ph_thr ph_next]; try assumption; right).
    + eapply PRun_caller; [exact R|fold s; congruence|reflexivity|reflexivity|intros a []|discriminate|discriminate].
    + eapply PRun_caller; [exact R|fold s; congruence|reflexivity|reflexivity|intros a [<-|[]]; exact I|cbn [p_main]; destruct (Nat.leb _ _); discriminate|]. cbn [p_main p_stat].
      destruct (Nat.leb_spec (length (p_els c)) (p_num s)) as [L|L]; [|discriminate]. intros _. right. intros i e r0 Hi. apply load_known. exact (counted s (ph_log h) _ _ _ Iv R P L i e r0 Hi).
  - (* QLock *) injection E as <-. constructor; cbn [ph_s ph_log ph_tasks ph_thr ph_next]; try assumption. right. eapply PRun_caller; [exact R|fold s; congruence|reflexivity|reflexivity|intros a [<-|[]]; exact I|discriminate|discriminate].
  - (* QEvalNum *) injection E as <-. constructor; cbn [ph_s ph_log ph_tasks ph_thr ph_next]; try assumption. right. destruct (Nat.leb_spec (length (p_els c)) (p_num s)) as [L|L].
    + eapply PRun_caller; [exact R|fold s; congruence|reflexivity|reflexivity|intros a [<-|[<-|[]]]; exact I|discriminate|]. intros _. right. intros i e r0 Hi. apply load_known. exact (counted s (ph_log h) _ _ _ Iv R P L i e r0 Hi).
    + eapply PRun_caller; [exact R|fold s; congruence|reflexivity|reflexivity|intros a [<-|[]]; exact I|discriminate|discriminate].
  - (* QEvalErr *) injection E as <-. constructor; cbn [ph_s ph_log ph_tasks ph_thr ph_next]; try assumption. right. destruct (isErr (p_stat s)) eqn:Er.
    + eapply PRun_caller; [exact R|fold s; congruence|reflexivity|reflexivity|intros a [<-|[<-|[]]]; exact I|discriminate|]. intros _. left. exact Er.
    + eapply PRun_caller; [exact R|fold s; congruence|reflexivity|reflexivity|intros a [<-|[]]; exact I|discriminate|discriminate].
  - (* QPreSleep *) injection E as <-. constructor; cbn [ph_s ph_log ph_tasks ph_thr ph_next]; try assumption. right. eapply PRun_caller; [exact R|fold s; congruence|reflexivity|reflexivity|intros a [<-|[]]; exact I|discriminate|discriminate].
  - (* QRet *) injection E as <-. constructor; cbn [ph_s ph_log ph_tasks ph_thr ph_next]; try assumption. right.
    assert (N : forall j u n, nth_error (by_ 0 [HNote NRead; HNote (NRet (p_stat s))]) j = Some (u, HNote n) -> j = 0 /\ n = NRead \/ j = 1 /\ n = NRet (p_stat s)).
    { intros [|[|[|j]]] u n X; try discriminate X; injection X as _ <-; auto. }
    constructor.
    + cbn [p_act]. apply PK_caller; [apply (pr_k _ _ _ _ _ R)|]. intros a [<-|[<-|[]]]; exact I.
    + rewrite trace_of_app, (pr_tr _ _ _ _ _ R). cbn. now rewrite app_nil_r.
    + discriminate.
    + discriminate.
    + intros j st Hj. destruct (at_cut _ _ _ _ Hj) as [A|(q & u & -> & E1)]; [destruct (pr_ret _ _ _ _ _ R j st A) as [X _]; fold s in X; congruence|].
      pose proof E1 as E2. apply N in E1 as [[_ E1]|[-> E1]]; [discriminate E1|]. injection E1 as ->. split; [reflexivity|]. split; [reflexivity|]. intros Ok i e r0 Hi.
      destruct (at_cut _ _ _ _ Hi) as [A|(q & v & _ & E3)]; [|apply N in E3 as [[_ E3]|[_ E3]]; discriminate E3].
      destruct (pr_all _ _ _ _ _ R Em) as [X|X]; [fold s in X; congruence|]. eapply know_hb; [eapply X; exact A| |rewrite nth_error_app2 by lia; replace (length (ph_log h) + 1 - length (ph_log h)) with 1 by lia; reflexivity]. lia.
    + intros j u Hj. cbn [p_tr]. destruct (nth_snoc_cases _ _ _ _ Hj) as [A|(q & _ & E1)]; [now apply (pr_wr _ _ _ _ _ R j u)|]. apply N in E1 as [[_ E1]|[_ E1]]; discriminate E1.
Qed.

Lemma PHI_step h lb s' : PHI h -> (lb = LRun -> p_may_call (ph_s h)) -> pstep c (ph_s h) lb = Some s' -> exists h', phstep c h lb = Some h' /\ ph_s h' = s' /\ PHI h'.
Proof.
  intros H D E. pose proof (PInv_step c HL Hrows _ _ _ (phi_inv _ H) D E) as Iv'.
  assert (G : forall h', phstep c h lb = Some h' -> ph_s h' = s').
  { intros h' X. unfold phstep in X. rewrite E in X. destruct lb; repeat match type of X with context [match ?y with _ => _ end] => destruct y end; try discriminate X; injection X as <-; reflexivity. }
  assert (T : exists h', phstep c h lb = Some h').
  { unfold phstep. rewrite E. destruct lb; try (eexists; reflexivity).
    - cbn [pstep] in E. destruct (nth_error (p_act (ph_s h)) i) eqn:En; [|discriminate]. assert (L : i < length (ph_thr h)) by (rewrite (phi_act _ H); apply nth_error_Some; congruence).
      apply nth_error_Some in L. destruct (nth_error (ph_thr h) i); [eauto|contradiction].
    - cbn [pstep] in E. destruct (Nat.ltb _ _); [|discriminate]. destruct (nth_error (p_pool (ph_s h)) i) eqn:En; [|discriminate]. assert (L : i < length (ph_tasks h)) by (rewrite (phi_pool _ H); apply nth_error_Some; congruence).
      apply nth_error_Some in L. destruct (nth_error (ph_tasks h) i); [eauto|contradiction]. }
  destruct T as [h' Eh]. exists h'. split; [exact Eh|]. split; [now apply G|]. destruct lb as [|r|i r|i|].
  - (* LRun *) unfold phstep in Eh. rewrite E in Eh. injection Eh as <-. cbn [pstep] in E. destruct (p_main (ph_s h)) eqn:Em; try discriminate E. injection E as <-. destruct H as [Iv Lp La Nk Nt Run]. set (s := ph_s h) in *.
    pose proof (i_phase c _ Iv') as P. unfold pphase_ok in P. cbn [p_main p_stat p_tr] in P. destruct P as (P1 & _ & P3). destruct (pool_quiet _ P3) as [Q1 Q2]. cbn [p_pool p_act] in Q1, Q2.
    rewrite Q1 in Lp. destruct (ph_tasks h) as [|x xs] eqn:Ets; [|discriminate Lp].
    constructor; cbn [ph_s ph_log ph_tasks ph_thr ph_next p_pool p_act]; try assumption; [now rewrite Q1|]. right. constructor.
    + cbn [p_act]. apply PK_call; [|exact Nk]. intros t o Ho. split; [apply Nt; now apply in_combine_l in Ho|apply Q2; now apply in_combine_r in Ho].
    + reflexivity.
    + cbn [p_stat]. intros _ Ok. split; [reflexivity|]. split; [|reflexivity]. destruct P1 as [P1|P1]; [rewrite P1 in Ok; discriminate Ok|].
      pose proof (i_phase c s Iv) as P. unfold pphase_ok in P. rewrite Em in P. destruct (p_out s) as [st|] eqn:Eo; [|destruct P as [P _]; rewrite P in P1; discriminate P1].
      destruct P as (_ & -> & _). destruct (D eq_refl (p_stat s) Eo) as [_ X]; [now apply isErr_code|]. rewrite X in La. now destruct (ph_thr h).
    + discriminate.
    + intros [|[|j]] st [t X]; discriminate X.
    + intros [|[|j]] t X; discriminate X.
  - apply (PHI_main h r s'); assumption.
  - apply (PHI_work h i r s'); assumption.
  - (* LPick *) unfold phstep in Eh. rewrite E in Eh. destruct (nth_error (ph_tasks h) i) as [x|] eqn:Ex; [|discriminate]. injection Eh as <-. cbn [pstep] in E. destruct (Nat.ltb _ _); [|discriminate]. destruct (nth_error (p_pool (ph_s h)) i) as [e|] eqn:En; [|discriminate]. injection E as <-.
    destruct H as [Iv Lp La Nk Nt Run]. set (s := ph_s h) in *. destruct Run as [(_ & Em & Eo)|R].
    { exfalso. pose proof (i_phase c s Iv) as P. unfold pphase_ok in P. rewrite Em, Eo in P. destruct P as (_ & _ & P). unfold bag in P. apply app_eq_nil in P as [_ P]. apply app_eq_nil in P as [P _]. destruct (p_pool s); [now destruct i|discriminate P]. }
    assert (X0 : x <> 0) by (apply (pk_task _ _ _ _ (pr_k _ _ _ _ _ R) x); eapply nth_error_In; exact Ex).
    assert (N : forall j u n, nth_error [(x, HLoad (HTask x))] j <> Some (u, HNote n)) by (intros [|[|j]]; discriminate).
    constructor; cbn [ph_s ph_log ph_tasks ph_thr ph_next p_pool p_act]; [exact Iv'|pose proof (length_remove i _ x Ex); pose proof (length_remove i _ e En); lia|rewrite !app_length; cbn [length]; lia|exact Nk|intros t Ht; apply in_app_or in Ht; destruct Ht as [Ht|[<-|[]]]; [now apply Nt|exact X0]|].
    right. constructor.
    + cbn [p_act]. rewrite combine_app by exact La. cbn [combine]. apply PK_pick; [apply (pr_k _ _ _ _ _ R)|exact Ex].
    + rewrite trace_of_app, (pr_tr _ _ _ _ _ R). cbn. now rewrite app_nil_r.
    + cbn [p_main p_stat]. intros Em Ok. destruct (pr_prep _ _ _ _ _ R Em Ok) as (_ & _ & X). rewrite X in Ex. now destruct i.
    + cbn [p_main p_stat]. intros Em. destruct (pr_all _ _ _ _ _ R Em) as [X|X]; [now left|right]. intros j y r Hj. apply know_t. destruct (at_cut _ _ _ _ Hj) as [A|(q & u & _ & E1)]; [eapply X; exact A|now apply N in E1].
    + intros j st Hj. destruct (at_cut _ _ _ _ Hj) as [A|(q & u & _ & E1)]; [|now apply N in E1]. destruct (pr_ret _ _ _ _ _ R j st A) as (M1 & M2 & M3). cbn [p_main p_out]. split; [exact M1|]. split; [exact M2|]. intros Ok k y r Hk. apply hb_app.
      destruct (at_cut _ _ _ _ Hk) as [A1|(q & u & _ & E1)]; [eapply M3; eassumption|now apply N in E1].
    + intros j u Hj. cbn [p_tr]. destruct (nth_snoc_cases _ _ _ _ Hj) as [A|(q & _ & E1)]; [now apply (pr_wr _ _ _ _ _ R j u)|now apply N in E1].
  - (* LSpurious *) unfold phstep in Eh. rewrite E in Eh. injection Eh as <-. cbn [pstep] in E. destruct (p_main (ph_s h)) eqn:Em; try discriminate E. injection E as <-. destruct H as [Iv Lp La Nk Nt Run]. set (s := ph_s h) in *.
    constructor; cbn [ph_s ph_log ph_tasks ph_thr ph_next p_pool p_act]; try assumption. right. destruct Run as [(_ & X & _)|[R1 R2 R3 R4 R5 R6]]; [fold s in X; congruence|]. constructor; try assumption; cbn [p_main]; try discriminate.
    intros j st Hj. destruct (R5 j st Hj) as [X _]. fold s in X. congruence.
Qed.
Lemma phrun_PHI : forall ls h s', PHI h -> p_disciplined c (ph_s h) ls -> prun c (ph_s h) ls = Some s' -> exists h', phrun c h ls = Some h' /\ ph_s h' = s' /\ PHI h'.
Proof.
  induction ls as [|l ls IH]; intros h s' H D E; cbn [prun phrun p_disciplined] in *; [injection E as <-; eauto|].
  destruct D as [D1 D2]. destruct (pstep c (ph_s h) l) as [s1|] eqn:E1; [|discriminate]. destruct (PHI_step h l s1 H D1 E1) as (h1 & Eh & Es & H1). rewrite Eh. subst s1. now apply IH.
Qed.
End Par.
Lemma phrun_prun c : forall ls h h', phrun c h ls = Some h' -> prun c (ph_s h) ls = Some (ph_s h').
Proof.
  induction ls as [|l ls IH]; intros h h' E; cbn [phrun prun] in *; [now injection E as <-|]. destruct (phstep c h l) as [h1|] eqn:E1; [|discriminate].
  assert (X : pstep c (ph_s h) l = Some (ph_s h1)).
  { unfold phstep in E1. destruct (pstep c (ph_s h) l) as [s1|]; [|discriminate]. destruct l; repeat match type of E1 with context [match ?y with _ => _ end] => destruct y end; try discriminate E1; injection E1 as <-; reflexivity. }
  rewrite X. now apply IH.
Qed.
