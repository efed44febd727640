(** Proofs about starting and stopping the threads of a pool. *)
From Verif Require Import ListUtil StopHbSpec StopHbModel.
Import ListNotations.

(** ** What a thread, and what a synchronising object, knows *)
Definition seen (m : slog) (a : who) (i : nat) : Prop := exists j x, nth_error m j = Some (a, x) /\ (i = j \/ sooner m i j).
Definition kept (m : slog) (l : sloc) (i : nat) : Prop := exists j a, nth_error m j = Some (a, SRel l) /\ (i = j \/ sooner m i j).

Lemma nth_app_l {A} (m e : list A) i x : nth_error m i = Some x -> nth_error (m ++ e) i = Some x.
Proof. intros H. rewrite nth_error_app1; [exact H|]. apply nth_error_Some. congruence. Qed.
Lemma nth_len {A} (m : list A) i x : nth_error m i = Some x -> i < length m.
Proof. intros H. apply nth_error_Some. congruence. Qed.
Lemma nth_app_inv {A} (m e : list A) i x : nth_error (m ++ e) i = Some x -> nth_error m i = Some x \/ (length m <= i /\ In x e).
Proof.
  intros H. destruct (le_lt_dec (length m) i) as [L|L].
  - right. split; [exact L|]. rewrite nth_error_app2 in H by exact L. eapply nth_error_In; exact H.
  - left. rewrite nth_error_app1 in H by exact L. exact H.
Qed.
Lemma in_app_nth {A} (m e : list A) x : In x e -> exists j, length m <= j /\ nth_error (m ++ e) j = Some x.
Proof.
  intros H. destruct (In_nth_error _ _ H) as [k K]. exists (length m + k). split; [lia|]. rewrite nth_error_app2 by lia.
  replace (length m + k - length m) with k by lia. exact K.
Qed.
Lemma sooner_app m e i j : sooner m i j -> sooner (m ++ e) i j.
Proof.
  induction 1 as [i j a x y L H1 H2|i j a b l L H1 H2|i k j _ I1 _ I2].
  - eapply so_thread; [exact L|apply nth_app_l; exact H1|apply nth_app_l; exact H2].
  - eapply so_sync; [exact L|apply nth_app_l; exact H1|apply nth_app_l; exact H2].
  - eapply so_trans; eassumption.
Qed.
Lemma sooner_lt m i j : sooner m i j -> i < j.
Proof. induction 1; lia. Qed.
Lemma seen_app m e a i : seen m a i -> seen (m ++ e) a i.
Proof. intros (j & x & H & [H1|H1]); exists j, x; (split; [apply nth_app_l; exact H|]); [left; exact H1|right; apply sooner_app; exact H1]. Qed.
Lemma kept_app m e l i : kept m l i -> kept (m ++ e) l i.
Proof. intros (j & x & H & [H1|H1]); exists j, x; (split; [apply nth_app_l; exact H|]); [left; exact H1|right; apply sooner_app; exact H1]. Qed.
Lemma seen_own m a x i : nth_error m i = Some (a, x) -> seen m a i.
Proof. intros H. exists i, x. auto. Qed.
(** What [a] knows happens before what it does next. *)
Lemma seen_next m e a i j x : seen m a i -> length m <= j -> nth_error (m ++ e) j = Some (a, x) -> sooner (m ++ e) i j.
Proof.
  intros (k & y & H & H1) L N. pose proof (nth_len _ _ _ H) as K.
  assert (S : sooner (m ++ e) k j) by (eapply so_thread; [lia|apply nth_app_l; exact H|exact N]).
  destruct H1 as [->|H1]; [exact S|]. eapply so_trans; [apply sooner_app; exact H1|exact S].
Qed.
Lemma kept_next m e b l i j : kept m l i -> length m <= j -> nth_error (m ++ e) j = Some (b, SAcq l) -> sooner (m ++ e) i j.
Proof.
  intros (k & y & H & H1) L N. pose proof (nth_len _ _ _ H) as K.
  assert (S : sooner (m ++ e) k j) by (eapply so_sync; [|apply nth_app_l; exact H|exact N]; lia).
  destruct H1 as [->|H1]; [exact S|]. eapply so_trans; [apply sooner_app; exact H1|exact S].
Qed.
Lemma in_act a x l : In x l -> In (a, x) (act a l).
Proof. intros H. unfold act. apply in_map. exact H. Qed.
Lemma act_in a b x l : In (b, x) (act a l) -> b = a /\ In x l.
Proof. unfold act. rewrite in_map_iff. intros (y & E & H). injection E as -> ->. auto. Qed.
Lemma seen_rel m a xs l i : seen m a i -> In (SRel l) xs -> kept (m ++ act a xs) l i.
Proof.
  intros H I. destruct (in_app_nth m (act a xs) (a, SRel l) (in_act _ _ _ I)) as (j & L & N). exists j, a. split; [exact N|]. right.
  eapply seen_next; eassumption.
Qed.
Lemma kept_acq m a xs l i : kept m l i -> In (SAcq l) xs -> seen (m ++ act a xs) a i.
Proof.
  intros H I. destruct (in_app_nth m (act a xs) (a, SAcq l) (in_act _ _ _ I)) as (j & L & N). exists j, (SAcq l). split; [exact N|]. right.
  eapply kept_next; eassumption.
Qed.
(** Inside of one block of actions of [a]. *)
Lemma new_seen m a xs b i x : length m <= i -> nth_error (m ++ act a xs) i = Some (b, x) -> b = a /\ seen (m ++ act a xs) a i.
Proof.
  intros L N. destruct (nth_app_inv _ _ _ _ N) as [O|[_ O]]; [apply nth_len in O; lia|]. apply act_in in O. destruct O as [-> _]. split; [reflexivity|].
  eapply seen_own; exact N.
Qed.
Lemma new_rel m a xs ys l b i x : length m <= i -> i < length m + length xs -> nth_error (m ++ act a (xs ++ SRel l :: ys)) i = Some (b, x) ->
  kept (m ++ act a (xs ++ SRel l :: ys)) l i.
Proof.
  intros L L2 N. exists (length m + length xs), a.
  assert (E : nth_error (m ++ act a (xs ++ SRel l :: ys)) (length m + length xs) = Some (a, SRel l)).
  { rewrite nth_error_app2 by lia. replace (length m + length xs - length m) with (length xs) by lia. unfold act. rewrite nth_error_map, nth_error_app2 by lia.
    rewrite Nat.sub_diag. reflexivity. }
  split; [exact E|]. right. destruct (new_seen _ _ _ _ _ _ L N) as [-> _]. eapply so_thread; [|exact N|exact E]. lia.
Qed.

(** ** Accesses of the flags *)
Lemma acc_app m a xs i b t p : flag_access (m ++ act a xs) i b t p ->
  flag_access m i b t p \/ (length m <= i /\ b = a /\ (In (SNote (NGet t p)) xs \/ In (SNote (NSet t p)) xs)).
Proof.
  intros [H|H]; unfold noted in H; (destruct (nth_app_inv _ _ _ _ H) as [O|[L O]];
    [left; unfold flag_access, noted; tauto|right; apply act_in in O; destruct O as [-> O]; tauto]).
Qed.
Lemma acc_old m e i b t p : flag_access m i b t p -> flag_access (m ++ e) i b t p.
Proof. intros [H|H]; [left|right]; apply nth_app_l; exact H. Qed.
Lemma acc_lt m i b t p : flag_access m i b t p -> i < length m.
Proof. intros [H|H]; eapply nth_len; exact H. Qed.

(** The two accesses the claim does not speak of. *)
Definition excl (a b : who) (p q : place) : Prop :=
  p = InLoop \/ q = InLoop \/ (p = InDestroy /\ exists u, b = User u /\ u <> 0) \/ (q = InDestroy /\ exists u, a = User u /\ u <> 0).
Definition ordered (m : slog) : Prop := forall i j a b t p q, i < j -> flag_access m i a t p -> flag_access m j b t q -> ~ excl a b p q -> sooner m i j.

(** One more event, of an access of the flag of [t] by one who knows all that matters. *)
Definition flag_note (x : sact) (t : nat) (q : place) : Prop := x = SNote (NGet t q) \/ x = SNote (NSet t q).
Lemma ordered_snoc m b x : ordered m ->
  (forall t q, flag_note x t q -> forall i a p, flag_access m i a t p -> ~ excl a b p q -> seen m b i) -> ordered (m ++ [(b, x)]).
Proof.
  intros O N i j a c t p q L H1 H2 E. change [(b, x)] with (act b [x]) in *. pose proof (acc_lt _ _ _ _ _ H2) as LJ. rewrite app_length in LJ. cbn [act map length] in LJ.
  apply acc_app in H2. destruct H2 as [H2|(L2 & -> & H2)].
  - pose proof (acc_lt _ _ _ _ _ H2) as L2. apply acc_app in H1. destruct H1 as [H1|(L1 & _)]; [|lia]. apply sooner_app. eapply O; eassumption.
  - assert (X : flag_note x t q) by (cbn [In] in H2; unfold flag_note; tauto).
    assert (J : j = length m) by lia. apply acc_app in H1. destruct H1 as [H1|(L1 & _)]; [|lia]. subst j.
    assert (Y : nth_error (m ++ act b [x]) (length m) = Some (b, x)) by (rewrite nth_error_app2 by lia; rewrite Nat.sub_diag; reflexivity).
    eapply seen_next; [eapply N; eassumption|lia|exact Y].
Qed.
Lemma act_snoc m b xs x : m ++ act b (xs ++ [x]) = (m ++ act b xs) ++ [(b, x)].
Proof. unfold act. rewrite map_app, app_assoc. reflexivity. Qed.
Definition quiet (xs : list sact) : Prop := forall x t q, In x xs -> ~ flag_note x t q.
Lemma ordered_quiet m b xs : ordered m -> quiet xs -> ordered (m ++ act b xs).
Proof.
  intros O Q. induction xs as [|x xs IH] using rev_ind; [unfold act; cbn [map]; rewrite app_nil_r; exact O|].
  rewrite act_snoc. apply ordered_snoc; [apply IH; intros y t q I; apply Q; apply in_or_app; left; exact I|].
  intros t q F. exfalso. eapply Q; [|exact F]. apply in_or_app. right. left. reflexivity.
Qed.
Lemma ordered_block m b pre post : ordered m -> quiet pre ->
  (forall x t q, In x post -> flag_note x t q -> forall i a p, flag_access m i a t p -> ~ excl a b p q -> seen (m ++ act b pre) b i) ->
  ordered (m ++ act b (pre ++ post)).
Proof.
  intros O Q H. induction post as [|x xs IH] using rev_ind; [rewrite app_nil_r; apply ordered_quiet; assumption|].
  rewrite app_assoc, act_snoc. apply ordered_snoc; [apply IH; intros y t q I; apply H; apply in_or_app; left; exact I|].
  intros t q F i a p A E. pose proof A as A0. apply acc_app in A. destruct A as [A|(L & -> & A)].
  - assert (S : seen (m ++ act b pre) b i) by (eapply H; try eassumption; apply in_or_app; right; left; reflexivity).
    unfold act. rewrite map_app, app_assoc. apply seen_app. exact S.
  - destruct A0 as [A0|A0]; eapply seen_own; exact A0.
Qed.

(** ** The invariant about the flags *)
Fixpoint pcok (h : pst) (u : nat) (p : upc) : Prop :=
  match p with
  | UIdle => True
  | UInit todo _ => u = 0 /\ (forall t, In t todo -> s_sec h t = false /\ t < s_next h)
  | UNeed q => match q with UCreate _ _ | USweep _ _ | UMon _ => True | _ => False end
  | UCreate _ _ => s_st h = Some u
  | USweep _ todo | UMark _ todo | UMon todo => s_st h = Some u /\ (forall t, In t todo -> s_sec h t = true /\ t < s_next h)
  | UJoin t q => pcok h u q /\ match q with USweep _ _ | UMon _ | UDestroy _ => True | _ => False end
  | UDestroy todo => u = 0 /\ (forall t, In t todo -> t < s_next h)
  end.

Definition cls (h : pst) (a : who) (t : nat) (p : place) : Prop :=
  match p with
  | AtBirth => exists u, a = User u /\ (s_sec h t = false -> u = 0)
  | InLoop => True
  | InWait => a = Pool t /\ s_sec h t = false
  | InList | AtErase => s_sec h t = true /\ (exists u, a = User u)
  | InDestroy => a = User 0
  end.
Definition listed (p : place) : Prop := p = AtBirth \/ p = InList \/ p = AtErase.
Definition held (h : pst) (i : nat) : Prop := match s_st h with None => kept (s_log h) LList i | Some u => seen (s_log h) (User u) i end.

Record FI (h : pst) : Prop := {
  fi_fresh : forall i a t p, flag_access (s_log h) i a t p -> t < s_next h;
  fi_prim : forall t, In t (s_prim h) -> t < s_next h /\ s_sec h t = false;
  fi_lst : forall t, In t (s_list h) -> t < s_next h /\ s_sec h t = true;
  fi_none : forall t, s_next h <= t -> s_w h t = WNone;
  fi_wait : forall t, s_w h t = WWait -> s_sec h t = false;
  fi_pc : forall u, pcok h u (s_u h u);
  fi_cls : forall i a t p, flag_access (s_log h) i a t p -> cls h a t p;
  fi_list : forall i a t p, flag_access (s_log h) i a t p -> s_sec h t = true -> listed p -> held h i;
  fi_new : forall i a t, flag_access (s_log h) i a t AtBirth ->
    (s_w h t = WNew -> kept (s_log h) (LNew t) i) /\ (s_w h t <> WNone -> s_w h t <> WNew -> seen (s_log h) (Pool t) i);
  fi_mtx : forall i a t p, flag_access (s_log h) i a t p -> p = InWait \/ p = InDestroy -> kept (s_log h) (LMtx t) i;
  fi_ord : ordered (s_log h) }.

(** How the state of a pool thread may change with the actions [xs] of [a]. *)
Definition w_ok (h h' : pst) (a : who) (xs : list sact) (t : nat) : Prop :=
  s_w h' t = s_w h t \/
  (s_w h t <> WNone /\ s_w h t <> WNew /\ s_w h' t <> WNone /\ s_w h' t <> WNew) \/
  (s_w h t = WNew /\ s_w h' t = WLoop /\ a = Pool t /\ In (SAcq (LNew t)) xs) \/
  (s_w h' t = WNew /\ In (SRel (LNew t)) xs /\ t < s_next h /\ forall i b, flag_access (s_log h) i b t AtBirth -> b = a).
Definition st_ok (h h' : pst) (a : who) (xs : list sact) : Prop :=
  s_st h' = s_st h \/ (exists u, s_st h = None /\ s_st h' = Some u /\ a = User u /\ In (SAcq LList) xs) \/
  (exists u, s_st h = Some u /\ s_st h' = None /\ a = User u /\ In (SRel LList) xs).
(** What an access among the actions has to meet. *)
Definition acc_ok (h h' : pst) (a : who) (pre post : list sact) (t : nat) (q : place) : Prop :=
  t < s_next h /\ q <> AtBirth /\ cls h a t q /\ (s_sec h t = true -> listed q -> exists u, s_st h' = Some u /\ a = User u) /\
  (q = InWait \/ q = InDestroy -> exists ys, pre ++ post = ys ++ [SRel (LMtx t)]) /\
  (forall i b p, flag_access (s_log h) i b t p -> ~ excl b a p q -> seen (s_log h ++ act a pre) a i).

Lemma FI_gen h h' a pre post : FI h -> s_log h' = s_log h ++ act a (pre ++ post) -> s_sec h' = s_sec h -> s_next h' = s_next h ->
  incl (s_prim h') (s_prim h) -> incl (s_list h') (s_list h) -> (forall u, pcok h' u (s_u h' u)) ->
  (forall t, w_ok h h' a (pre ++ post) t) -> (forall t, s_w h' t = WWait -> s_sec h t = false) -> st_ok h h' a (pre ++ post) ->
  quiet pre -> (forall x t q, In x post -> flag_note x t q -> acc_ok h h' a pre post t q) -> FI h'.
Proof.
  intros I EL ES EN IP IL PC W WW ST Q A.
  assert (NF : forall i b t q, flag_access (s_log h') i b t q -> flag_access (s_log h) i b t q \/
    (length (s_log h) <= i /\ b = a /\ acc_ok h h' a pre post t q)).
  { intros i b t q F. rewrite EL in F. apply acc_app in F. destruct F as [F|(L & -> & F)]; [left; exact F|]. right. split; [exact L|]. split; [reflexivity|].
    assert (G : exists x, In x (pre ++ post) /\ flag_note x t q) by (unfold flag_note; destruct F as [F|F]; eexists; (split; [exact F|tauto])).
    destruct G as (x & G & G2). apply in_app_or in G. destruct G as [G|G]; [exfalso; eapply Q; eassumption|]. eapply A; eassumption. }
  assert (NEW : forall i b t q, flag_access (s_log h') i b t q -> length (s_log h) <= i -> seen (s_log h') b i).
  { intros i b t q F _. destruct F as [F|F]; eapply seen_own; exact F. }
  constructor.
  - intros i b t q F. rewrite EN. destruct (NF _ _ _ _ F) as [F'|(_ & _ & H & _)]; [eapply fi_fresh; eassumption|exact H].
  - intros t H. rewrite EN, ES. apply (fi_prim h I). apply IP. exact H.
  - intros t H. rewrite EN, ES. apply (fi_lst h I). apply IL. exact H.
  - intros t H. rewrite EN in H. pose proof (fi_none h I t H) as N. destruct (W t) as [E|[(E & _)|[(E & _)|(_ & _ & E & _)]]]; [congruence|congruence|congruence|lia].
  - intros t H. rewrite ES. apply WW. exact H.
  - exact PC.
  - intros i b t q F. assert (C : cls h b t q) by (destruct (NF _ _ _ _ F) as [F'|(_ & -> & _ & _ & H & _)]; [eapply fi_cls; eassumption|exact H]).
    unfold cls in *. rewrite ES. exact C.
  - intros i b t q F SE LQ. rewrite ES in SE. destruct (NF _ _ _ _ F) as [F'|(L & -> & _ & _ & _ & H & _)].
    + pose proof (fi_list h I _ _ _ _ F' SE LQ) as K. unfold held in *. rewrite EL.
      destruct ST as [E|[(u & E1 & E2 & -> & IX)|(u & E1 & E2 & -> & IX)]].
      * rewrite E. destruct (s_st h); [apply seen_app|apply kept_app]; exact K.
      * rewrite E1 in K. rewrite E2. eapply kept_acq; eassumption.
      * rewrite E1 in K. rewrite E2. eapply seen_rel; eassumption.
    + destruct (H SE LQ) as (u & E1 & ->). unfold held. rewrite E1. eapply NEW; eassumption.
  - intros i b t F. destruct (NF _ _ _ _ F) as [F'|(_ & _ & _ & H & _)]; [|congruence]. destruct (fi_new h I _ _ _ F') as [K1 K2]. rewrite EL.
    destruct (W t) as [E|[(E1 & E2 & E3 & E4)|[(E1 & E2 & -> & E4)|(E2 & E3 & _ & E4)]]].
    + rewrite E. split; [intros X; apply kept_app; auto|intros X Y; apply seen_app; auto].
    + split; [intros X; congruence|]. intros _ _. apply seen_app. auto.
    + split; [intros X; congruence|]. intros _ _. eapply kept_acq; [apply K1; exact E1|exact E4].
    + split; [|intros X Y; congruence]. intros _. eapply seen_rel; [|exact E3]. pose proof (E4 _ _ F') as X. rewrite X in F'. destruct F' as [F'|F']; eapply seen_own; exact F'.
  - intros i b t q F Hq. destruct (NF _ _ _ _ F) as [F'|(L & -> & _ & _ & _ & _ & H & _)].
    + rewrite EL. apply kept_app. eapply fi_mtx; eassumption.
    + destruct (H Hq) as (ys & E). rewrite E in EL. rewrite EL in *.
      assert (N : exists n, nth_error (s_log h ++ act a (ys ++ [SRel (LMtx t)])) i = Some (a, SNote n)) by (destruct F as [F|F]; eexists; exact F).
      destruct N as (n & N). eapply (new_rel _ _ _ []); [exact L| |exact N].
      pose proof (nth_len _ _ _ N) as LI. rewrite app_length in LI. unfold act in LI. rewrite map_length, app_length in LI. cbn [length] in LI.
      destruct (Nat.eq_dec i (length (s_log h) + length ys)) as [->|]; [|lia]. exfalso. rewrite act_snoc in N.
      rewrite nth_error_app2 in N by (rewrite app_length; unfold act; rewrite map_length; lia).
      rewrite app_length in N. unfold act in N. rewrite map_length, Nat.sub_diag in N. cbn in N. discriminate.
  - rewrite EL. apply ordered_block; [apply (fi_ord h I)|exact Q|]. intros x t q IX FX i b p Fx NE. destruct (A x t q IX FX) as (_ & _ & _ & _ & _ & H). eapply H; eassumption.
Qed.

Lemma pcok_mono h h' u p : (s_st h = Some u -> s_st h' = Some u) -> (forall t, t < s_next h -> s_sec h' t = s_sec h t) -> s_next h <= s_next h' ->
  pcok h u p -> pcok h' u p.
Proof.
  intros HS HC HN. induction p as [|todo n|q IHq|n last|n todo|n todo|todo|t q IHq|todo]; cbn [pcok]; try tauto.
  - intros [E H]. split; [exact E|]. intros t I. destruct (H t I) as [H1 H2]. rewrite HC by exact H2. split; [exact H1|lia].
  - intros [E H]. split; [auto|]. intros t I. destruct (H t I) as [H1 H2]. rewrite HC by exact H2. split; [exact H1|lia].
  - intros [E H]. split; [auto|]. intros t I. destruct (H t I) as [H1 H2]. rewrite HC by exact H2. split; [exact H1|lia].
  - intros [E H]. split; [auto|]. intros t I. destruct (H t I) as [H1 H2]. rewrite HC by exact H2. split; [exact H1|lia].
  - intros [E H]. split; [exact E|]. intros t I. specialize (H t I). lia.
Qed.

Lemma pcok_eq h h' u p : s_st h' = s_st h -> s_sec h' = s_sec h -> s_next h' = s_next h -> pcok h u p -> pcok h' u p.
Proof. intros E1 E2 E3. apply pcok_mono; [congruence|intros; congruence|lia]. Qed.

Lemma quiet_nil : quiet [].
Proof. intros x t q []. Qed.
Lemma quiet_cons x xs : (forall t q, ~ flag_note x t q) -> quiet xs -> quiet (x :: xs).
Proof. intros H Q y t q [<-|I]; [apply H|apply Q; exact I]. Qed.
Ltac quiet_tac := repeat (apply quiet_cons; [intros ? ? [?|?]; discriminate|]); apply quiet_nil.

Lemma FI_birth h u (sec : bool) p' l' : FI h -> (if sec then s_st h = Some u else u = 0) ->
  (forall t, In t p' -> In t (s_prim h) \/ (t = s_next h /\ sec = false)) -> (forall t, In t l' -> In t (s_list h) \/ (t = s_next h /\ sec = true)) ->
  FI (set_lists (birth h u sec) p' l').
Proof.
  intros I HU HP HL. set (h' := set_lists (birth h u sec) p' l').
  assert (EL : s_log h' = s_log h ++ act (User u) [SNote (NSet (s_next h) AtBirth)]) by reflexivity.
  assert (EO : forall t, t < s_next h -> s_sec h' t = s_sec h t) by (intros t L; cbn; apply upd_other; lia).
  assert (EN : s_sec h' (s_next h) = sec) by (cbn; apply upd_same).
  assert (NF : forall i b t q, flag_access (s_log h') i b t q -> flag_access (s_log h) i b t q \/
    (length (s_log h) <= i /\ b = User u /\ t = s_next h /\ q = AtBirth)).
  { intros i b t q F. rewrite EL in F. apply acc_app in F. destruct F as [F|(L & -> & F)]; [left; exact F|]. right. cbn [In] in F.
    destruct F as [[F|[]]|[F|[]]]; [discriminate|]. injection F as -> ->. auto. }
  assert (PCM : forall v p, pcok h v p -> pcok h' v p) by (intros v p; apply pcok_mono; [cbn; auto|exact EO|cbn; lia]).
  constructor.
  - intros i b t q F. change (s_next h') with (S (s_next h)). destruct (NF _ _ _ _ F) as [F'|(_ & _ & -> & _)]; [pose proof (fi_fresh h I _ _ _ _ F'); lia|lia].
  - intros t H. change (s_prim h') with p' in H. change (s_next h') with (S (s_next h)). destruct (HP t H) as [O|[-> E]].
    + destruct (fi_prim h I t O) as [O1 O2]. rewrite EO by exact O1. split; [lia|exact O2].
    + rewrite EN. split; [lia|exact E].
  - intros t H. change (s_list h') with l' in H. change (s_next h') with (S (s_next h)). destruct (HL t H) as [O|[-> E]].
    + destruct (fi_lst h I t O) as [O1 O2]. rewrite EO by exact O1. split; [lia|exact O2].
    + rewrite EN. split; [lia|exact E].
  - intros t H. change (s_next h') with (S (s_next h)) in H. apply (fi_none h I). lia.
  - intros t H. change (s_w h' t) with (s_w h t) in H. rewrite EO; [apply (fi_wait h I); exact H|].
    destruct (le_lt_dec (s_next h) t) as [L|L]; [|exact L]. pose proof (fi_none h I t L). congruence.
  - intros v. apply PCM. apply (fi_pc h I).
  - intros i b t q F. destruct (NF _ _ _ _ F) as [F'|(_ & -> & -> & ->)].
    + pose proof (fi_cls h I _ _ _ _ F') as C. pose proof (fi_fresh h I _ _ _ _ F') as L. unfold cls in *. rewrite (EO t L). exact C.
    + cbn [cls]. exists u. split; [reflexivity|]. rewrite EN. intros ->. exact HU.
  - intros i b t q F SE LQ. unfold held. change (s_st h') with (s_st h). destruct (NF _ _ _ _ F) as [F'|(_ & -> & -> & ->)].
    + pose proof (fi_fresh h I _ _ _ _ F') as L. rewrite (EO t L) in SE. pose proof (fi_list h I _ _ _ _ F' SE LQ) as K. unfold held in K. rewrite EL.
      destruct (s_st h); [apply seen_app|apply kept_app]; exact K.
    + rewrite EN in SE. rewrite SE in HU. rewrite HU. destruct F as [F|F]; eapply seen_own; exact F.
  - intros i b t F. change (s_w h' t) with (s_w h t). destruct (NF _ _ _ _ F) as [F'|(_ & -> & -> & _)].
    + destruct (fi_new h I _ _ _ F') as [K1 K2]. rewrite EL. split; [intros X; apply kept_app; auto|intros X Y; apply seen_app; auto].
    + rewrite (fi_none h I (s_next h)) by lia. split; [discriminate|congruence].
  - intros i b t q F Hq. destruct (NF _ _ _ _ F) as [F'|(_ & -> & -> & ->)]; [|destruct Hq; discriminate].
    rewrite EL. apply kept_app. eapply fi_mtx; eassumption.
  - rewrite EL. apply (ordered_block _ _ [] _ (fi_ord h I) quiet_nil). intros x t q IX FX i b p Fx _. exfalso.
    destruct IX as [<-|[]]. destruct FX as [FX|FX]; [discriminate|]. injection FX as <- <-. pose proof (fi_fresh h I _ _ _ _ Fx). lia.
Qed.

Lemma births_FI n : forall h, FI h -> FI (births h n) /\ s_u (births h n) = s_u h /\ s_st (births h n) = s_st h.
Proof.
  induction n as [|n IH]; intros h I; cbn [births]; [auto|].
  set (h1 := set_lists (birth h 0 false) (s_prim (birth h 0 false) ++ [s_next h]) (s_list (birth h 0 false))).
  assert (I1 : FI h1).
  { apply FI_birth; [exact I|reflexivity| |].
    - intros t H. apply in_app_or in H. destruct H as [H|[<-|[]]]; [left; exact H|right; auto].
    - intros t H. left. exact H. }
  destruct (IH h1 I1) as (J1 & J2 & J3). split; [exact J1|]. split; [rewrite J2; reflexivity|rewrite J3; reflexivity].
Qed.

(** Nothing but the position of a user thread changes, or nothing but the log, by actions that are no accesses. *)
Lemma FI_quiet h h' a xs : FI h -> s_log h' = s_log h ++ act a xs -> quiet xs -> s_sec h' = s_sec h -> s_next h' = s_next h ->
  incl (s_prim h') (s_prim h) -> incl (s_list h') (s_list h) -> (forall u, pcok h' u (s_u h' u)) ->
  (forall t, w_ok h h' a xs t) -> (forall t, s_w h' t = WWait -> s_sec h t = false) -> st_ok h h' a xs -> FI h'.
Proof.
  intros. apply (FI_gen h h' a xs []); rewrite ?app_nil_r; auto. intros x t q [].
Qed.
Lemma w_same h h' a xs : s_w h' = s_w h -> forall t, w_ok h h' a xs t.
Proof. intros E t. left. rewrite E. reflexivity. Qed.

Lemma FI_setu h u p : FI h -> pcok h u p -> FI (set_u h u p).
Proof.
  intros I P. apply (FI_quiet h _ (User u) []); auto.
  - unfold act. cbn [map]. rewrite app_nil_r. reflexivity.
  - apply quiet_nil.
  - apply incl_refl.
  - apply incl_refl.
  - intros v. cbn [set_u s_u]. destruct (Nat.eq_dec v u) as [->|N]; [rewrite upd_same; eapply pcok_eq; [..|exact P]; reflexivity|].
    rewrite upd_other by exact N. eapply pcok_eq; [..|exact (fi_pc h I v)]; reflexivity.
  - apply w_same. reflexivity.
  - intros t H. apply (fi_wait h I). exact H.
  - left. reflexivity.
Qed.
Lemma FI_say h a xs : FI h -> quiet xs -> FI (say h a xs).
Proof.
  intros I Q. apply (FI_quiet h _ a xs); auto; try reflexivity; try apply incl_refl.
  - intros v. eapply pcok_eq; [..|exact (fi_pc h I v)]; reflexivity.
  - apply w_same. reflexivity.
  - intros t H. apply (fi_wait h I). exact H.
  - left. reflexivity.
Qed.
Lemma FI_frame h h' : FI h -> s_log h' = s_log h -> s_sec h' = s_sec h -> s_next h' = s_next h -> incl (s_prim h') (s_prim h) -> incl (s_list h') (s_list h) ->
  s_u h' = s_u h -> s_w h' = s_w h -> s_st h' = s_st h -> FI h'.
Proof.
  intros I E1 E2 E3 IP IL E4 E5 E6. apply (FI_quiet h _ (User 0) []); auto.
  - unfold act. cbn [map]. rewrite app_nil_r. exact E1.
  - apply quiet_nil.
  - intros v. rewrite E4. eapply pcok_eq; [exact E6|exact E2|exact E3|exact (fi_pc h I v)].
  - apply w_same. exact E5.
  - intros t H. apply (fi_wait h I). congruence.
  - left. exact E6.
Qed.

(** The flag is set under the mutex of the thread. *)
Lemma FI_stop h u t p : FI h -> t < s_next h -> p = AtErase /\ s_sec h t = true /\ s_st h = Some u \/ p = InDestroy /\ u = 0 -> FI (stop h u t p).
Proof.
  intros I L H. apply (FI_gen h _ (User u) [SAcq (LMtx t)] [SNote (NSet t p); SRel (LMtx t)]); auto; try reflexivity; try apply incl_refl.
  - intros v. eapply pcok_eq; [..|exact (fi_pc h I v)]; reflexivity.
  - apply w_same. reflexivity.
  - intros t' H'. apply (fi_wait h I). exact H'.
  - left. reflexivity.
  - quiet_tac.
  - intros x t' q [<-|[<-|[]]] [F|F]; try discriminate. injection F as <- <-.
    split; [exact L|]. split; [destruct H as [[-> _]|[-> _]]; discriminate|]. split; [|split; [|split]].
    + destruct H as [(-> & H & _)|(-> & ->)]; cbn [cls]; [split; [exact H|exists u; reflexivity]|reflexivity].
    + intros _ LQ. destruct H as [(-> & _ & H)|(-> & ->)]; [exists u; split; [exact H|reflexivity]|]. destruct LQ as [X|[X|X]]; discriminate.
    + intros _. exists [SAcq (LMtx t); SNote (NSet t p)]. reflexivity.
    + intros i b p0 F0 NE. pose proof (fi_cls h I _ _ _ _ F0) as C.
      assert (OWN : b = User u -> seen (s_log h ++ act (User u) [SAcq (LMtx t)]) (User u) i).
      { intros ->. apply seen_app. destruct F0 as [F0|F0]; eapply seen_own; exact F0. }
      destruct H as [(-> & SE & ST)|(-> & ->)].
      * assert (LS : listed p0 -> seen (s_log h ++ act (User u) [SAcq (LMtx t)]) (User u) i).
        { intros LQ. apply seen_app. pose proof (fi_list h I _ _ _ _ F0 SE LQ) as K. unfold held in K. rewrite ST in K. exact K. }
        unfold listed in LS. destruct p0; cbn [cls] in C; try (apply LS; tauto).
        { exfalso. apply NE. left. reflexivity. }
        { destruct C as [_ C]. congruence. }
        { subst b. destruct (Nat.eq_dec u 0) as [->|N]; [apply OWN; reflexivity|]. exfalso. apply NE. right. right. left. split; [reflexivity|]. exists u. auto. }
      * assert (X : forall v, b = User v -> seen (s_log h ++ act (User 0) [SAcq (LMtx t)]) (User 0) i).
        { intros v ->. destruct (Nat.eq_dec v 0) as [->|N]; [apply OWN; reflexivity|]. exfalso. apply NE. right. right. right. split; [reflexivity|]. exists v. auto. }
        destruct p0; cbn [cls] in C.
        { destruct C as (v & C & _). eapply X; exact C. }
        { exfalso. apply NE. left. reflexivity. }
        { eapply kept_acq; [eapply (fi_mtx h I); [exact F0|left; reflexivity]|left; reflexivity]. }
        { destruct C as (_ & v & C). eapply X; exact C. }
        { destruct C as (_ & v & C). eapply X; exact C. }
        { eapply X; exact C. }
Qed.

(** Those who look through the list hold its mutex. *)
Lemma FI_look h h' u t x : FI h -> t < s_next h -> s_sec h t = true -> s_st h = Some u -> x = SNote (NGet t InList) \/ x = SNote (NSet t InList) ->
  s_log h' = s_log h ++ act (User u) [x] -> s_sec h' = s_sec h -> s_next h' = s_next h -> s_prim h' = s_prim h -> s_list h' = s_list h ->
  s_u h' = s_u h -> s_w h' = s_w h -> s_st h' = s_st h -> FI h'.
Proof.
  intros I L SE ST HX E1 E2 E3 E4 E5 E6 E7 E8. apply (FI_gen h _ (User u) [] [x]); auto; rewrite ?E4, ?E5; try apply incl_refl.
  - intros v. rewrite E6. eapply pcok_eq; [exact E8|exact E2|exact E3|exact (fi_pc h I v)].
  - apply w_same. exact E7.
  - intros t' H'. apply (fi_wait h I). congruence.
  - left. exact E8.
  - apply quiet_nil.
  - intros y t' q [<-|[]] F. assert (Y : t' = t /\ q = InList) by (destruct HX as [-> | ->]; destruct F as [F|F]; try discriminate; injection F as <- <-; auto).
    destruct Y as [-> ->]. split; [exact L|]. split; [discriminate|]. split; [split; [exact SE|exists u; reflexivity]|]. split; [|split].
    + intros _ _. exists u. split; [congruence|reflexivity].
    + intros [X|X]; discriminate.
    + intros i b p0 F0 NE. unfold act. cbn [map]. rewrite app_nil_r. pose proof (fi_cls h I _ _ _ _ F0) as C.
      assert (LS : listed p0 -> seen (s_log h) (User u) i).
      { intros LQ. pose proof (fi_list h I _ _ _ _ F0 SE LQ) as K. unfold held in K. rewrite ST in K. exact K. }
      unfold listed in LS. destruct p0; cbn [cls] in C; try (apply LS; tauto).
      * exfalso. apply NE. left. reflexivity.
      * destruct C as [_ C]. congruence.
      * subst b. destruct (Nat.eq_dec u 0) as [->|N]; [destruct F0 as [F0|F0]; eapply seen_own; exact F0|]. exfalso. apply NE. right. right. left. split; [reflexivity|]. exists u. auto.
Qed.

(** A thread is started by the one who made it. *)
Lemma FI_start h u t : FI h -> t < s_next h -> (forall i b, flag_access (s_log h) i b t AtBirth -> b = User u) -> FI (start h u t).
Proof.
  intros I L B. apply (FI_quiet h _ (User u) [SRel (LNew t)]); auto; try reflexivity; try apply incl_refl.
  - quiet_tac.
  - intros v. eapply pcok_eq; [..|exact (fi_pc h I v)]; reflexivity.
  - intros t'. destruct (Nat.eq_dec t' t) as [->|X]; [|left; cbn; apply upd_other; exact X]. right. right. right. cbn [start say set_w s_w]. rewrite upd_same.
    split; [reflexivity|]. split; [left; reflexivity|]. split; [exact L|exact B].
  - intros t' H. cbn [start say set_w s_w] in H. destruct (Nat.eq_dec t' t) as [->|X]; [rewrite upd_same in H; discriminate|]. rewrite upd_other in H by exact X.
    apply (fi_wait h I). exact H.
  - left. reflexivity.
Qed.

Lemma FI_unlock h u : FI h -> s_st h = Some u -> s_u h u = UIdle -> FI (unlock_st h u).
Proof.
  intros I ST E. apply (FI_quiet h _ (User u) [SRel LList]); auto; try reflexivity; try apply incl_refl.
  - quiet_tac.
  - intros v. destruct (Nat.eq_dec v u) as [->|N]; [cbn [unlock_st say set_st s_u]; rewrite E; exact Logic.I|].
    apply (pcok_mono h); [congruence|reflexivity|apply le_n|exact (fi_pc h I v)].
  - apply w_same. reflexivity.
  - intros t H. apply (fi_wait h I). exact H.
  - right. right. exists u. split; [exact ST|]. split; [reflexivity|]. split; [reflexivity|left; reflexivity].
Qed.
Lemma FI_lock h u : FI h -> s_st h = None -> FI (say (set_st h (Some u)) (User u) [SAcq LList]).
Proof.
  intros I ST. apply (FI_quiet h _ (User u) [SAcq LList]); auto; try reflexivity; try apply incl_refl.
  - quiet_tac.
  - intros v. apply (pcok_mono h); [congruence|reflexivity|apply le_n|exact (fi_pc h I v)].
  - apply w_same. reflexivity.
  - intros t H. apply (fi_wait h I). exact H.
  - right. left. exists u. split; [exact ST|]. split; [reflexivity|]. split; [reflexivity|left; reflexivity].
Qed.

Lemma FI_spawn h u : FI h -> s_st h = Some u -> FI (spawn h u).
Proof.
  intros I ST. unfold spawn. set (h1 := set_lists (birth h u true) (s_prim (birth h u true)) (s_list (birth h u true) ++ [s_next h])).
  assert (I1 : FI h1).
  { apply FI_birth; [exact I|exact ST| |].
    - intros t H. left. exact H.
    - intros t H. apply in_app_or in H. destruct H as [H|[<-|[]]]; [left; exact H|right; auto]. }
  apply FI_start; [exact I1|cbn; lia|]. intros i b F. change (s_log h1) with (s_log h ++ act (User u) [SNote (NSet (s_next h) AtBirth)]) in F.
  apply acc_app in F. destruct F as [F|(_ & F & _)]; [pose proof (fi_fresh h I _ _ _ _ F); lia|exact F].
Qed.

Lemma in_remove_incl t l : incl (remove Nat.eq_dec t l) l.
Proof. intros x H. apply in_remove in H. tauto. Qed.

Lemma FI_user h u b h' : FI h -> user_step h u b = Some h' -> FI h'.
Proof.
  intros I H. unfold user_step in H. pose proof (fi_pc h I u) as P. destruct (s_u h u) as [|todo n|q|n last|n todo|n todo|todo|t q|todo] eqn:EU; cbn [pcok] in P.
  - discriminate.
  - destruct P as [-> P]. destruct todo as [|t r]; injection H as <-.
    + apply FI_setu; [exact I|exact Logic.I].
    + destruct (P t (or_introl eq_refl)) as [P1 P2]. apply FI_setu.
      * apply FI_start; [exact I|exact P2|]. intros i a F. pose proof (fi_cls h I _ _ _ _ F) as (v & -> & C). rewrite (C P1). reflexivity.
      * cbn [pcok]. split; [reflexivity|]. intros t' H'. apply (P t'). right. exact H'.
  - destruct (s_st h) eqn:ST; [discriminate|]. destruct (destroying (s_u h 0)); [discriminate|]. injection H as <-.
    apply FI_setu; [apply FI_lock; assumption|].
    assert (LS : forall t, In t (s_list h) -> s_sec h t = true /\ t < s_next h) by (intros t H; destruct (fi_lst h I t H); auto).
    destruct q; try contradiction; cbn [pcok]; auto; (split; [reflexivity|exact LS]).
  - destruct n as [|n]; injection H as <-.
    + assert (X : FI (unlock_st (set_u h u UIdle) u)).
      { apply FI_unlock; [apply FI_setu; [exact I|exact Logic.I]|exact P|cbn; apply upd_same]. }
      destruct last; [|exact X]. eapply FI_frame; [exact X|..]; try reflexivity; apply incl_refl.
    + apply FI_setu; [apply FI_spawn; assumption|exact P].
  - destruct P as [ST P]. destruct todo as [|t r].
    + destruct (Nat.ltb (length (s_list h)) n); injection H as <-.
      * apply FI_unlock; [apply FI_setu; [exact I|exact Logic.I]|exact ST|cbn; apply upd_same].
      * apply FI_setu; [exact I|]. cbn [pcok]. split; [exact ST|]. intros t H. destruct (fi_lst h I t H); auto.
    + destruct (P t (or_introl eq_refl)) as [P1 P2].
      assert (X : FI (say h (User u) [SNote (NGet t InList)])).
      { eapply (FI_look h _ u t _ I P2 P1 ST (or_introl eq_refl)); reflexivity. }
      destruct (s_f h t); injection H as <-.
      * apply FI_setu; [exact X|]. cbn [pcok]. split; [exact ST|]. intros t' H'. apply (P t'). right. exact H'.
      * apply FI_setu; [apply FI_stop; [exact X|exact P2|left; auto]|]. cbn [pcok]. split; [|exact Logic.I]. split; [exact ST|]. intros t' H'. apply (P t'). right. exact H'.
  - destruct P as [ST P].
    assert (U : FI (unlock_st (set_u h u UIdle) u)) by (apply FI_unlock; [apply FI_setu; [exact I|exact Logic.I]|exact ST|cbn; apply upd_same]).
    destruct n as [|n]; [injection H as <-; exact U|]. destruct todo as [|t r]; injection H as <-; [exact U|].
    destruct (P t (or_introl eq_refl)) as [P1 P2]. apply FI_setu.
    + eapply (FI_look h _ u t _ I P2 P1 ST (or_intror eq_refl)); reflexivity.
    + cbn [pcok]. split; [exact ST|]. intros t' H'. apply (P t'). right. exact H'.
  - destruct P as [ST P]. destruct todo as [|t r].
    + injection H as <-. apply FI_unlock; [apply FI_setu; [exact I|exact Logic.I]|exact ST|cbn; apply upd_same].
    + destruct (P t (or_introl eq_refl)) as [P1 P2].
      assert (X : FI (say h (User u) [SNote (NGet t InList)])).
      { eapply (FI_look h _ u t _ I P2 P1 ST (or_introl eq_refl)); reflexivity. }
      destruct (s_f h t && b); injection H as <-.
      * apply FI_setu; [apply FI_stop; [exact X|exact P2|left; auto]|]. cbn [pcok]. split; [|exact Logic.I]. split; [exact ST|]. intros t' H'. apply (P t'). right. exact H'.
      * apply FI_setu; [exact X|]. cbn [pcok]. split; [exact ST|]. intros t' H'. apply (P t'). right. exact H'.
  - destruct P as [P P2]. destruct (s_w h t); try discriminate. injection H as <-.
    assert (X : FI (say h (User u) [SAcq (LEnd t); SNote (NJoined t)])) by (apply FI_say; [exact I|quiet_tac]).
    apply FI_setu.
    + destruct (destroying q); [exact X|]. eapply FI_frame; [exact X|..]; try reflexivity; [apply incl_refl|apply in_remove_incl].
    + destruct (destroying q); (eapply pcok_eq; [..|exact P]; reflexivity).
  - destruct P as [-> P]. destruct todo as [|t r]; injection H as <-.
    + apply FI_setu; [|exact Logic.I]. apply FI_say; [|quiet_tac]. eapply FI_frame; [exact I|..]; try reflexivity; intros x [].
    + apply FI_setu; [apply FI_stop; [exact I|apply P; left; reflexivity|right; auto]|]. cbn [pcok]. split; [|exact Logic.I]. split; [reflexivity|].
      intros t' H'. apply (P t'). right. exact H'.
Qed.

(** A step of a pool thread that accesses no flag. *)
Lemma FI_pool h h' t v xs : FI h -> s_log h' = s_log h ++ act (Pool t) xs -> quiet xs -> s_sec h' = s_sec h -> s_next h' = s_next h ->
  s_prim h' = s_prim h -> s_list h' = s_list h -> s_u h' = s_u h -> s_st h' = s_st h -> s_w h' = upd (s_w h) t v -> v <> WNone -> v <> WNew ->
  (v = WWait -> s_sec h t = false) -> s_w h t <> WNone -> (s_w h t = WNew -> v = WLoop /\ In (SAcq (LNew t)) xs) -> FI h'.
Proof.
  intros I E1 Q E2 E3 E4 E5 E6 E7 EW V1 V2 V3 W1 W2. apply (FI_quiet h _ (Pool t) xs); auto; rewrite ?E4, ?E5; try apply incl_refl.
  - intros u. rewrite E6. eapply pcok_eq; [exact E7|exact E2|exact E3|exact (fi_pc h I u)].
  - intros t'. unfold w_ok. rewrite EW. destruct (Nat.eq_dec t' t) as [->|N]; [|left; apply upd_other; exact N]. rewrite upd_same. right.
    destruct (s_w h t) eqn:EH; try (left; repeat split; congruence). right. left. destruct (W2 eq_refl) as [-> W3]. auto.
  - intros t' H. rewrite EW in H. destruct (Nat.eq_dec t' t) as [->|N]; [rewrite upd_same in H; auto|]. rewrite upd_other in H by exact N. apply (fi_wait h I). exact H.
  - left. exact E7.
Qed.

Lemma FI_loop h t v xs : FI h -> s_w h t = WLoop -> v <> WNone -> v <> WNew -> v <> WWait -> quiet xs -> FI (say (set_w h t v) (Pool t) (SNote (NGet t InLoop) :: xs)).
Proof.
  intros I EH V1 V2 V3 Q. apply (FI_gen h _ (Pool t) [] (SNote (NGet t InLoop) :: xs)); auto; try reflexivity; try apply incl_refl.
  - intros u. eapply pcok_eq; [..|exact (fi_pc h I u)]; reflexivity.
  - intros t'. unfold w_ok. cbn [say set_w s_w]. destruct (Nat.eq_dec t' t) as [->|N]; [|left; apply upd_other; exact N]. rewrite upd_same. right. left.
    rewrite EH. repeat split; congruence.
  - intros t' H. cbn [say set_w s_w] in H. destruct (Nat.eq_dec t' t) as [->|N]; [rewrite upd_same in H; congruence|]. rewrite upd_other in H by exact N. apply (fi_wait h I). exact H.
  - left. reflexivity.
  - apply quiet_nil.
  - intros x t' q [<-|IX] F; [|exfalso; eapply Q; eassumption]. destruct F as [F|F]; [|discriminate]. injection F as <- <-.
    assert (L : t < s_next h) by (destruct (le_lt_dec (s_next h) t) as [L|L]; [pose proof (fi_none h I t L); congruence|exact L]).
    split; [exact L|]. split; [discriminate|]. split; [exact Logic.I|]. split; [|split].
    + intros _ [X|[X|X]]; discriminate.
    + intros [X|X]; discriminate.
    + intros i b p _ NE. exfalso. apply NE. right. left. reflexivity.
Qed.

Lemma FI_ready h t (asked : bool) v : FI h -> s_w h t = WWait -> v = WLoop \/ v = WWait ->
  FI (say (set_w h t v) (Pool t) (SAcq (LMtx t) :: (if asked then [SAcq (LQueue 0); SRel (LQueue 0)] else []) ++ [SNote (NGet t InWait); SRel (LMtx t)])).
Proof.
  intros I EH V. pose proof (fi_wait h I t EH) as SE.
  set (pre := SAcq (LMtx t) :: (if asked then [SAcq (LQueue 0); SRel (LQueue 0)] else [])).
  apply (FI_gen h _ (Pool t) pre [SNote (NGet t InWait); SRel (LMtx t)]); auto; try reflexivity; try apply incl_refl.
  - intros u. eapply pcok_eq; [..|exact (fi_pc h I u)]; reflexivity.
  - intros t'. unfold w_ok. cbn [say set_w s_w]. destruct (Nat.eq_dec t' t) as [->|N]; [|left; apply upd_other; exact N]. rewrite upd_same. right. left.
    rewrite EH. destruct V as [-> | ->]; repeat split; congruence.
  - intros t' H. cbn [say set_w s_w] in H. destruct (Nat.eq_dec t' t) as [->|N]; [exact SE|]. rewrite upd_other in H by exact N. apply (fi_wait h I). exact H.
  - left. reflexivity.
  - unfold pre. destruct asked; quiet_tac.
  - intros x t' q [<-|[<-|[]]] [F|F]; try discriminate. injection F as <- <-.
    assert (L : t < s_next h) by (destruct (le_lt_dec (s_next h) t) as [L|L]; [pose proof (fi_none h I t L); congruence|exact L]).
    split; [exact L|]. split; [discriminate|]. split; [split; [reflexivity|exact SE]|]. split; [|split].
    + intros X. congruence.
    + intros _. exists (pre ++ [SNote (NGet t InWait)]). rewrite <- app_assoc. reflexivity.
    + intros i b p F0 NE. pose proof (fi_cls h I _ _ _ _ F0) as C. destruct p; cbn [cls] in C.
      * apply seen_app. destruct (fi_new h I _ _ _ F0) as [_ K]. apply K; congruence.
      * exfalso. apply NE. left. reflexivity.
      * destruct C as [-> _]. apply seen_app. destruct F0 as [F0|F0]; eapply seen_own; exact F0.
      * destruct C as [C _]. congruence.
      * destruct C as [C _]. congruence.
      * eapply kept_acq; [eapply (fi_mtx h I); [exact F0|right; reflexivity]|left; reflexivity].
Qed.

Lemma FI_step h l h' : FI h -> stop_step h l = Some h' -> FI h'.
Proof.
  intros I H. destruct l as [a k q|a t|u v|n m| |u n|u n|u|u b|t|t q n back|t|t|t asked awake]; cbn [stop_step] in H.
  - destruct (may_commit h a); [|discriminate]. injection H as <-.
    eapply FI_frame; [apply (FI_say h a [SNote (NCommit k); SAcq (LQueue q); SRel (LQueue q)] I); quiet_tac|..]; try reflexivity; apply incl_refl.
  - destruct (may_commit h a); [|discriminate]. injection H as <-. apply FI_say; [exact I|quiet_tac].
  - destruct (idle h u && idle h v); [|discriminate]. injection H as <-. apply FI_say; [apply FI_say; [exact I|quiet_tac]|quiet_tac].
  - destruct (idle h 0 && negb (s_on h) && _); [|discriminate]. injection H as <-. destruct (births_FI n h I) as (J & _).
    apply FI_setu; [exact J|]. cbn [pcok]. split; [reflexivity|]. intros t H. destruct (fi_prim _ J t H); auto.
  - destruct (idle h 0 && s_on h && _); [|discriminate]. injection H as <-. apply FI_setu; [exact I|]. cbn [pcok]. split; [reflexivity|].
    intros t H. apply in_app_or in H. destruct H as [H|H]; [apply (fi_prim h I t H)|apply (fi_lst h I t H)].
  - destruct (idle h u); [|discriminate]. injection H as <-. apply FI_setu; [exact I|exact Logic.I].
  - destruct (idle h u); [|discriminate]. injection H as <-. apply FI_setu; [exact I|exact Logic.I].
  - destruct (idle h u); [|discriminate]. injection H as <-. apply FI_setu; [exact I|exact Logic.I].
  - eapply FI_user; eassumption.
  - destruct (s_w h t) as [| | | | |[|k ks]|k ks|] eqn:EH; try discriminate.
    + injection H as <-. eapply (FI_pool h _ t WLoop [SAcq (LNew t)] I); try reflexivity; try congruence; [quiet_tac|]. intros _. split; [reflexivity|left; reflexivity].
    + destruct (s_f h t); injection H as <-; apply FI_loop; try assumption; try discriminate; quiet_tac.
    + injection H as <-. eapply (FI_pool h _ t WLoop [] I); try reflexivity; try congruence; [|apply quiet_nil]. unfold act. cbn [map]. rewrite app_nil_r. reflexivity.
    + injection H as <-. eapply (FI_pool h _ t (WBusy k ks) [SNote (NBegin k)] I); try reflexivity; try congruence. quiet_tac.
    + injection H as <-. eapply (FI_pool h _ t (WHave ks) [SNote (NEnd k)] I); try reflexivity; try congruence. quiet_tac.
  - destruct (s_w h t) eqn:EH; try discriminate. injection H as <-. eapply (FI_pool h _ t (WHave _) [SAcq (LQueue q); SRel (LQueue q)] I); try reflexivity; try congruence. quiet_tac.
  - destruct (s_w h t) eqn:EH; try discriminate. injection H as <-. eapply (FI_pool h _ t WLoop [] I); try reflexivity; try congruence; [|apply quiet_nil]. unfold act. cbn [map]. rewrite app_nil_r. reflexivity.
  - destruct (s_w h t) eqn:EH; try discriminate. destruct (s_sec h t) eqn:SE; [discriminate|]. injection H as <-.
    eapply (FI_pool h _ t WWait [] I); try reflexivity; try congruence; [|apply quiet_nil]. unfold act. cbn [map]. rewrite app_nil_r. reflexivity.
  - destruct (s_w h t) eqn:EH; try discriminate. injection H as <-. apply FI_ready; [exact I|exact EH|]. destruct (awake || negb (s_f h t)); auto.
Qed.

Lemma FI_init : FI s_init.
Proof.
  assert (N : forall i a t p, ~ flag_access (s_log s_init) i a t p) by (intros i a t p [H|H]; unfold noted in H; cbn in H; destruct i; discriminate).
  constructor.
  - intros i a t p F. exfalso. eapply N; exact F.
  - intros t [].
  - intros t [].
  - intros t _. reflexivity.
  - intros t H. reflexivity.
  - intros u. exact Logic.I.
  - intros i a t p F. exfalso. eapply N; exact F.
  - intros i a t p F. exfalso. eapply N; exact F.
  - intros i a t F. exfalso. eapply N; exact F.
  - intros i a t p F. exfalso. eapply N; exact F.
  - intros i j a b t p q _ F. exfalso. eapply N; exact F.
Qed.
Lemma FI_run ls h : stop_run ls h -> FI h.
Proof. induction 1; [apply FI_init|eapply FI_step; eassumption]. Qed.

(** ** What is visible to whom *)
Definition joined (m : slog) (t : nat) : Prop := exists j u, noted m j (User u) (NJoined t).
Definition hands (h : pst) (t k : nat) : Prop :=
  match s_w h t with WHave ks => In k ks | WBusy _ ks => In k ks | _ => False end.
Definition members (h : pst) : list nat := s_prim h ++ s_list h.
(** What user thread 0 has still to do in destroy and init. *)
Definition desok (h : pst) : Prop :=
  match s_u h 0 with
  | UDestroy todo => s_st h = None /\ (forall t, In t (members h) -> In t todo \/ joined (s_log h) t)
  | UJoin t (UDestroy todo) => s_st h = None /\ (forall t', In t' (members h) -> t' = t \/ In t' todo \/ joined (s_log h) t')
  | UInit todo _ => NoDup todo /\ (forall t, In t todo -> s_w h t = WNone /\ In t (s_prim h))
  | _ => True
  end.
Record VI (h : pst) : Prop := {
  v_q : forall q k, In k (s_q h q) -> exists i a, noted (s_log h) i a (NCommit k) /\ kept (s_log h) (LQueue q) i;
  v_h : forall t k, hands h t k -> exists i a, noted (s_log h) i a (NCommit k) /\ seen (s_log h) (Pool t) i;
  v_b : forall j b k, noted (s_log h) j b (NBegin k) -> exists i a, noted (s_log h) i a (NCommit k) /\ sooner (s_log h) i j;
  v_end : forall t i x, s_w h t = WEnded -> nth_error (s_log h) i = Some (Pool t, x) -> kept (s_log h) (LEnd t) i;
  v_act : forall t i x, nth_error (s_log h) i = Some (Pool t, x) -> s_w h t <> WNone;
  v_join : forall j a t, noted (s_log h) j a (NJoined t) -> s_w h t = WEnded /\ (exists u, a = User u) /\
    forall i x, nth_error (s_log h) i = Some (Pool t, x) -> sooner (s_log h) i j;
  v_live : forall t, s_w h t <> WNone -> joined (s_log h) t \/ In t (members h);
  v_ret : forall j a, noted (s_log h) j a NDestroyed -> a = User 0 /\ forall i t x, i < j -> nth_error (s_log h) i = Some (Pool t, x) ->
    exists i' u, i' < j /\ noted (s_log h) i' (User u) (NJoined t);
  v_des : desok h }.

Lemma noted_old m e i a n : noted m i a n -> noted (m ++ e) i a n.
Proof. apply nth_app_l. Qed.
Lemma joined_old m e t : joined m t -> joined (m ++ e) t.
Proof. intros (j & u & H). exists j, u. apply noted_old. exact H. Qed.
Lemma noted_app m a xs i b n : noted (m ++ act a xs) i b n -> noted m i b n \/ (length m <= i /\ b = a /\ In (SNote n) xs).
Proof. intros H. destruct (nth_app_inv _ _ _ _ H) as [O|[L O]]; [left; exact O|]. right. apply act_in in O. tauto. Qed.

Lemma VI_gen h h' a xs : VI h -> s_log h' = s_log h ++ act a xs ->
  (forall q k, In k (s_q h' q) -> In k (s_q h q) \/ exists i b, noted (s_log h') i b (NCommit k) /\ kept (s_log h') (LQueue q) i) ->
  (forall t k, hands h' t k -> hands h t k \/ exists i b, noted (s_log h') i b (NCommit k) /\ seen (s_log h') (Pool t) i) ->
  (forall k, In (SNote (NBegin k)) xs -> exists t, a = Pool t /\ hands h t k) ->
  (forall t, s_w h' t = s_w h t \/
    (a = Pool t /\ s_w h t <> WNone /\ s_w h t <> WEnded /\ s_w h' t <> WNone /\ (s_w h' t = WEnded -> exists ys, xs = ys ++ [SRel (LEnd t)])) \/
    (s_w h t = WNone /\ s_w h' t = WNew /\ In t (members h'))) ->
  (forall t, a = Pool t -> s_w h t <> WNone /\ s_w h t <> WEnded) ->
  (forall t, In (SNote (NJoined t)) xs -> xs = [SAcq (LEnd t); SNote (NJoined t)] /\ (exists u, a = User u) /\ s_w h t = WEnded) ->
  (forall t, In t (members h) -> In t (members h') \/ joined (s_log h') t) ->
  (In (SNote NDestroyed) xs -> a = User 0 /\ forall t, s_w h t <> WNone -> joined (s_log h) t) ->
  desok h' -> VI h'.
Proof.
  intros I EL Hq Hh Hb Hw Ha Hj Hl Hd Hdes.
  assert (PN : forall t i x, nth_error (s_log h') i = Some (Pool t, x) -> nth_error (s_log h) i = Some (Pool t, x) \/ (length (s_log h) <= i /\ a = Pool t)).
  { intros t i x H. rewrite EL in H. destruct (nth_app_inv _ _ _ _ H) as [O|[L O]]; [left; exact O|]. right. apply act_in in O. destruct O as [O _]. auto. }
  constructor.
  - intros q k H. destruct (Hq q k H) as [O|O]; [|exact O]. destruct (v_q h I q k O) as (i & b & N & K). exists i, b. rewrite EL.
    split; [apply noted_old; exact N|apply kept_app; exact K].
  - intros t k H. destruct (Hh t k H) as [O|O]; [|exact O]. destruct (v_h h I t k O) as (i & b & N & K). exists i, b. rewrite EL.
    split; [apply noted_old; exact N|apply seen_app; exact K].
  - intros j b k H. pose proof H as H0. rewrite EL in H. apply noted_app in H. destruct H as [O|(L & -> & O)].
    + destruct (v_b h I j b k O) as (i & c & N & K). exists i, c. rewrite EL. split; [apply noted_old; exact N|apply sooner_app; exact K].
    + destruct (Hb k O) as (t & -> & HH). destruct (v_h h I t k HH) as (i & c & N & K). exists i, c. rewrite EL in *. split; [apply noted_old; exact N|].
      eapply seen_next; [exact K|exact L|exact H0].
  - intros t i x E H. destruct (Hw t) as [W|[(-> & W1 & W2 & _ & W3)|(_ & W & _)]]; [| |congruence].
    + destruct (PN t i x H) as [O|[L ->]]; [rewrite EL; apply kept_app; eapply v_end; [exact I|congruence|exact O]|].
      destruct (Ha t eq_refl) as [_ X]. congruence.
    + destruct (W3 E) as (ys & EX). subst xs. rewrite EL in H |- *. destruct (nth_app_inv _ _ _ _ H) as [O|[L _]].
      * apply seen_rel; [eapply seen_own; exact O|]. apply in_or_app. right. left. reflexivity.
      * pose proof (nth_len _ _ _ H) as LI. rewrite app_length in LI. unfold act in LI. rewrite map_length, app_length in LI. cbn [length] in LI.
        destruct (Nat.eq_dec i (length (s_log h) + length ys)) as [->|N]; [|eapply (new_rel _ _ _ []); [exact L| |exact H]; lia].
        exists (length (s_log h) + length ys), (Pool t). split; [|left; reflexivity]. rewrite act_snoc.
        rewrite nth_error_app2 by (rewrite app_length; unfold act; rewrite map_length; lia).
        rewrite app_length. unfold act. rewrite map_length, Nat.sub_diag. reflexivity.
  - intros t i x H. destruct (PN t i x H) as [O|[_ ->]].
    + pose proof (v_act h I t i x O) as W0. destruct (Hw t) as [W|[(_ & _ & _ & W & _)|(W & _)]]; congruence.
    + destruct (Ha t eq_refl) as [X _]. destruct (Hw t) as [W|[(_ & _ & _ & W & _)|(W & _)]]; congruence.
  - intros j b t H. pose proof H as H0. rewrite EL in H. apply noted_app in H. destruct H as [O|(L & -> & O)].
    + destruct (v_join h I j b t O) as (E & U & S). destruct (Hw t) as [W|[(_ & _ & W & _)|(W & _)]]; try congruence.
      split; [congruence|]. split; [exact U|]. intros i x N. destruct (PN t i x N) as [N'|[_ ->]]; [rewrite EL; apply sooner_app; eapply S; exact N'|].
      destruct (Ha t eq_refl) as [_ X]. congruence.
    + destruct (Hj t O) as (EX & (u & ->) & E). destruct (Hw t) as [W|[(W & _)|(W & _)]]; [|discriminate|congruence].
      split; [congruence|]. split; [exists u; reflexivity|]. intros i x N. destruct (PN t i x N) as [N'|[_ X]]; [|discriminate].
      pose proof (v_end h I t i x E N') as K. subst xs. rewrite EL in *.
      assert (J : j = length (s_log h) + 1).
      { pose proof (nth_len _ _ _ H0) as LJ. rewrite app_length in LJ. cbn [act map length] in LJ.
        destruct (Nat.eq_dec j (length (s_log h))) as [->|NJ]; [|lia]. exfalso. unfold noted in H0. rewrite nth_error_app2 in H0 by lia. rewrite Nat.sub_diag in H0. discriminate. }
      assert (A0 : nth_error (s_log h ++ act (User u) [SAcq (LEnd t); SNote (NJoined t)]) (length (s_log h)) = Some (User u, SAcq (LEnd t))).
      { rewrite nth_error_app2 by lia. rewrite Nat.sub_diag. reflexivity. }
      eapply so_trans; [eapply kept_next; [exact K|apply le_n|exact A0]|]. eapply so_thread; [|exact A0|exact H0]. lia.
  - intros t H. destruct (Hw t) as [W|[(_ & W & _)|(_ & _ & W)]]; [| |right; exact W].
    + rewrite W in H. destruct (v_live h I t H) as [O|O]; [left; rewrite EL; apply joined_old; exact O|]. destruct (Hl t O); auto.
    + destruct (v_live h I t W) as [O|O]; [left; rewrite EL; apply joined_old; exact O|]. destruct (Hl t O); auto.
  - intros j b H. rewrite EL in H. apply noted_app in H. destruct H as [O|(L & -> & O)].
    + destruct (v_ret h I j b O) as [U R]. split; [exact U|]. intros i t x LI N. destruct (PN t i x N) as [N'|[X _]]; [|pose proof (nth_len _ _ _ O); lia].
      destruct (R i t x LI N') as (i' & u & L' & J). exists i', u. rewrite EL. split; [exact L'|apply noted_old; exact J].
    + destruct (Hd O) as [-> R]. split; [reflexivity|]. intros i t x LI N. destruct (PN t i x N) as [N'|[_ X]]; [|discriminate].
      destruct (R t (v_act h I t i x N')) as (i' & u & J). exists i', u. rewrite EL. split; [pose proof (nth_len _ _ _ J); lia|apply noted_old; exact J].
  - exact Hdes.
Qed.

Lemma desok_frame h h' e : desok h -> s_u h' 0 = s_u h 0 -> s_log h' = s_log h ++ e -> s_prim h' = s_prim h ->
  (destroying (s_u h 0) = true -> s_st h' = s_st h /\ s_list h' = s_list h) -> (forall t, s_w h t = WNone -> In t (s_prim h) -> s_w h' t = WNone) -> desok h'.
Proof.
  intros D EU EL EP ES EW. unfold desok in *. rewrite EU. unfold members in *. rewrite EP. destruct (s_u h 0) as [|todo n|q|n last|n todo|n todo|todo|t q|todo]; auto.
  - destruct D as [D1 D2]. split; [exact D1|]. intros t H. destruct (D2 t H) as [W P]. auto.
  - destruct q; auto. destruct (ES eq_refl) as [E1 E2]. rewrite E1, E2. destruct D as [D1 D2]. split; [exact D1|]. intros t' H.
    destruct (D2 t' H) as [X|[X|X]]; [auto|auto|]. right. right. rewrite EL. apply joined_old. exact X.
  - destruct (ES eq_refl) as [E1 E2]. rewrite E1, E2. destruct D as [D1 D2]. split; [exact D1|]. intros t' H.
    destruct (D2 t' H) as [X|X]; [auto|]. right. rewrite EL. apply joined_old. exact X.
Qed.

Definition plain_act (x : sact) : Prop := match x with SNote (NBegin _) | SNote (NJoined _) | SNote NDestroyed => False | _ => True end.
(** Actions of a user thread that neither join nor return from destroy; threads may be started. *)
Lemma VI_user_plain h h' u xs : VI h -> s_log h' = s_log h ++ act (User u) xs -> Forall plain_act xs -> s_q h' = s_q h ->
  (forall t, s_w h' t = s_w h t \/ (s_w h t = WNone /\ s_w h' t = WNew /\ In t (members h'))) -> incl (members h) (members h') -> desok h' -> VI h'.
Proof.
  intros I EL F EQ EW IM D. rewrite Forall_forall in F. apply (VI_gen h h' (User u) xs); auto.
  - intros q k H. rewrite EQ in H. left. exact H.
  - intros t k H. unfold hands in *. destruct (EW t) as [W|(_ & W & _)]; rewrite W in H; [left; exact H|destruct H].
  - intros k H. apply F in H. destruct H.
  - intros t. destruct (EW t) as [W|W]; [left; exact W|right; right; exact W].
  - intros t H. discriminate.
  - intros t H. apply F in H. destruct H.
  - intros H. apply F in H. destruct H.
Qed.

Lemma births_VI n : forall h, FI h -> VI h -> idle h 0 = true -> VI (births h n) /\ FI (births h n) /\ s_prim (births h n) = s_prim h ++ seq (s_next h) n /\ s_w (births h n) = s_w h.
Proof.
  induction n as [|n IH]; intros h FIh I ID; cbn [births]; [cbn [seq]; rewrite app_nil_r; auto|].
  set (h1 := set_lists (birth h 0 false) (s_prim (birth h 0 false) ++ [s_next h]) (s_list (birth h 0 false))).
  destruct (births_FI 1 h FIh) as (F1 & _). cbn [births] in F1. change (FI h1) in F1.
  assert (I1 : VI h1).
  { apply (VI_user_plain h h1 0 [SNote (NSet (s_next h) AtBirth)] I); try reflexivity.
    - repeat constructor.
    - intros t. left. reflexivity.
    - intros t H. unfold members in *. apply in_app_or in H. cbn. apply in_or_app. destruct H as [H|H]; [left; apply in_or_app; left; exact H|right; exact H].
    - unfold desok. cbn. unfold idle in ID. destruct (s_u h 0); try discriminate. exact Logic.I. }
  destruct (IH h1 F1 I1 ID) as (J1 & J2 & J3 & J4). split; [exact J1|]. split; [exact J2|]. split; [|exact J4]. rewrite J3. cbn [s_prim h1 set_lists birth say s_next]. rewrite <- app_assoc. reflexivity.
Qed.

Lemma VI_user h u b h' : FI h -> VI h -> user_step h u b = Some h' -> VI h'.
Proof.
  intros F I H. pose proof (fi_pc h F u) as P. pose proof (v_des h I) as D.
  (* while user thread 0 destroys, nobody else holds the mutex of the list *)
  assert (DS : destroying (s_u h 0) = true -> s_st h = None).
  { intros E. unfold desok in D. destruct (s_u h 0) as [| | | | | | |t q|]; try discriminate; [destruct q; try discriminate|]; apply D. }
  unfold user_step in H. destruct (s_u h u) as [|todo n|q|n last|n todo|n todo|todo|t q|todo] eqn:EU; cbn [pcok] in P.
  - discriminate.
  - destruct P as [-> P]. unfold desok in D. rewrite EU in D. destruct D as [D1 D2]. destruct todo as [|t r]; injection H as <-.
    + apply (VI_user_plain h _ 0 [] I); try reflexivity; [unfold act; cbn [map]; rewrite app_nil_r; reflexivity|apply Forall_nil|auto|apply incl_refl].
    + destruct (D2 t (or_introl eq_refl)) as [W0 IP]. apply (VI_user_plain h _ 0 [SRel (LNew t)] I); try reflexivity; [repeat constructor| |apply incl_refl|].
      * intros t'. cbn [set_u start say set_w s_w]. destruct (Nat.eq_dec t' t) as [->|N]; [|left; apply upd_other; exact N]. right. rewrite upd_same.
        split; [exact W0|]. split; [reflexivity|]. apply in_or_app. left. exact IP.
      * unfold desok. cbn. inversion D1 as [|? ? N1 N2]; subst. split; [exact N2|]. intros t' H. destruct (D2 t' (or_intror H)) as [W P']. split; [|exact P'].
        rewrite upd_other; [exact W|]. intros ->. exact (N1 H).
  - destruct (s_st h) eqn:ST; [discriminate|]. destruct (destroying (s_u h 0)) eqn:DD; [discriminate|]. injection H as <-.
    apply (VI_user_plain h _ u [SAcq LList] I); try reflexivity; [repeat constructor|auto|apply incl_refl|].
    destruct (Nat.eq_dec u 0) as [->|N].
    + unfold desok. cbn. destruct q; try contradiction; exact Logic.I.
    + eapply (desok_frame h _ _ D); [cbn; apply upd_other; lia|reflexivity|reflexivity|congruence|auto].
  - assert (ND : destroying (s_u h 0) = true -> False) by (intros E; pose proof (DS E); congruence).
    destruct n as [|n]; injection H as <-.
    + assert (X : VI (unlock_st (set_u h u UIdle) u)).
      { apply (VI_user_plain h _ u [SRel LList] I); try reflexivity; [repeat constructor|auto|apply incl_refl|].
        destruct (Nat.eq_dec u 0) as [->|N]; [exact Logic.I|]. eapply (desok_frame h _ _ D); [cbn; apply upd_other; lia|reflexivity|reflexivity|intros E; destruct (ND E)|auto]. }
      destruct last; [|exact X]. apply (VI_user_plain _ _ u [] X); try reflexivity; [unfold act; cbn [map]; rewrite app_nil_r; reflexivity|apply Forall_nil|auto|apply incl_refl|].
      exact (v_des _ X).
    + pose proof (fi_none h F (s_next h) (le_n _)) as WN.
      apply (VI_user_plain h _ u [SNote (NSet (s_next h) AtBirth); SRel (LNew (s_next h))] I); try reflexivity.
      * cbn. rewrite <- app_assoc. reflexivity.
      * repeat constructor.
      * intros t'. cbn. destruct (Nat.eq_dec t' (s_next h)) as [->|N]; [|left; apply upd_other; exact N]. right. rewrite upd_same.
        split; [exact WN|]. split; [reflexivity|]. unfold members. cbn. apply in_or_app. right. apply in_or_app. right. left. reflexivity.
      * intros t' H'. unfold members in *. cbn. apply in_app_or in H'. apply in_or_app. destruct H' as [H'|H']; [left; exact H'|right; apply in_or_app; left; exact H'].
      * destruct (Nat.eq_dec u 0) as [->|N]; [exact Logic.I|].
        eapply (desok_frame h _ (act (User u) [SNote (NSet (s_next h) AtBirth); SRel (LNew (s_next h))]) D); [cbn; apply upd_other; lia|cbn; rewrite <- app_assoc; reflexivity|reflexivity|intros E; destruct (ND E)|].
        intros t' W' P'. cbn. rewrite upd_other; [exact W'|]. destruct (fi_prim h F t' P') as [L _]. lia.
  - destruct P as [ST P]. assert (ND : destroying (s_u h 0) = true -> False) by (intros E; pose proof (DS E); congruence).
    destruct todo as [|t r].
    + destruct (Nat.ltb (length (s_list h)) n); injection H as <-.
      * apply (VI_user_plain h _ u [SRel LList] I); try reflexivity; [repeat constructor|auto|apply incl_refl|].
        destruct (Nat.eq_dec u 0) as [->|N]; [exact Logic.I|]. eapply (desok_frame h _ _ D); [cbn; apply upd_other; lia|reflexivity|reflexivity|intros E; destruct (ND E)|auto].
      * apply (VI_user_plain h _ u [] I); try reflexivity; [unfold act; cbn [map]; rewrite app_nil_r; reflexivity|apply Forall_nil|auto|apply incl_refl|].
        destruct (Nat.eq_dec u 0) as [->|N]; [exact Logic.I|]. eapply (desok_frame h _ [] D); [cbn; apply upd_other; lia|rewrite app_nil_r; reflexivity|reflexivity|intros E; destruct (ND E)|auto].
    + destruct (s_f h t); injection H as <-.
      * apply (VI_user_plain h _ u [SNote (NGet t InList)] I); try reflexivity; [repeat constructor|auto|apply incl_refl|].
        destruct (Nat.eq_dec u 0) as [->|N]; [exact Logic.I|]. eapply (desok_frame h _ _ D); [cbn; apply upd_other; lia|reflexivity|reflexivity|intros E; destruct (ND E)|auto].
      * assert (EL : s_log (set_u (stop (say h (User u) [SNote (NGet t InList)]) u t AtErase) u (UJoin t (USweep n r))) =
          s_log h ++ act (User u) [SNote (NGet t InList); SAcq (LMtx t); SNote (NSet t AtErase); SRel (LMtx t)]) by (cbn; rewrite <- app_assoc; reflexivity).
        apply (VI_user_plain h _ u [SNote (NGet t InList); SAcq (LMtx t); SNote (NSet t AtErase); SRel (LMtx t)] I); try reflexivity; [exact EL|repeat constructor|auto|apply incl_refl|].
        destruct (Nat.eq_dec u 0) as [->|N]; [exact Logic.I|]. eapply (desok_frame h _ _ D); [cbn; apply upd_other; lia|exact EL|reflexivity|intros E; destruct (ND E)|auto].
  - destruct P as [ST P]. assert (ND : destroying (s_u h 0) = true -> False) by (intros E; pose proof (DS E); congruence).
    assert (X : VI (unlock_st (set_u h u UIdle) u)).
    { apply (VI_user_plain h _ u [SRel LList] I); try reflexivity; [repeat constructor|auto|apply incl_refl|].
      destruct (Nat.eq_dec u 0) as [->|N]; [exact Logic.I|]. eapply (desok_frame h _ _ D); [cbn; apply upd_other; lia|reflexivity|reflexivity|intros E; destruct (ND E)|auto]. }
    destruct n as [|n]; [injection H as <-; exact X|]. destruct todo as [|t r]; injection H as <-; [exact X|].
    apply (VI_user_plain h _ u [SNote (NSet t InList)] I); try reflexivity; [repeat constructor|auto|apply incl_refl|].
    destruct (Nat.eq_dec u 0) as [->|N]; [exact Logic.I|]. eapply (desok_frame h _ _ D); [cbn; apply upd_other; lia|reflexivity|reflexivity|intros E; destruct (ND E)|auto].
  - destruct P as [ST P]. assert (ND : destroying (s_u h 0) = true -> False) by (intros E; pose proof (DS E); congruence).
    destruct todo as [|t r].
    + injection H as <-. apply (VI_user_plain h _ u [SRel LList] I); try reflexivity; [repeat constructor|auto|apply incl_refl|].
      destruct (Nat.eq_dec u 0) as [->|N]; [exact Logic.I|]. eapply (desok_frame h _ _ D); [cbn; apply upd_other; lia|reflexivity|reflexivity|intros E; destruct (ND E)|auto].
    + destruct (s_f h t && b); injection H as <-.
      * assert (EL : s_log (set_u (stop (say h (User u) [SNote (NGet t InList)]) u t AtErase) u (UJoin t (UMon r))) =
          s_log h ++ act (User u) [SNote (NGet t InList); SAcq (LMtx t); SNote (NSet t AtErase); SRel (LMtx t)]) by (cbn; rewrite <- app_assoc; reflexivity).
        apply (VI_user_plain h _ u [SNote (NGet t InList); SAcq (LMtx t); SNote (NSet t AtErase); SRel (LMtx t)] I); try reflexivity; [exact EL|repeat constructor|auto|apply incl_refl|].
        destruct (Nat.eq_dec u 0) as [->|N]; [exact Logic.I|]. eapply (desok_frame h _ _ D); [cbn; apply upd_other; lia|exact EL|reflexivity|intros E; destruct (ND E)|auto].
      * apply (VI_user_plain h _ u [SNote (NGet t InList)] I); try reflexivity; [repeat constructor|auto|apply incl_refl|].
        destruct (Nat.eq_dec u 0) as [->|N]; [exact Logic.I|]. eapply (desok_frame h _ _ D); [cbn; apply upd_other; lia|reflexivity|reflexivity|intros E; destruct (ND E)|auto].
  - destruct (s_w h t) eqn:EW; try discriminate. injection H as <-. destruct P as [P P2].
    set (xs := [SAcq (LEnd t); SNote (NJoined t)]).
    assert (JT : joined (s_log h ++ act (User u) xs) t).
    { exists (S (length (s_log h))), u. unfold noted. rewrite nth_error_app2 by lia. replace (S (length (s_log h)) - length (s_log h)) with 1 by lia. reflexivity. }
    assert (G : forall h', s_log h' = s_log h ++ act (User u) xs -> s_q h' = s_q h -> s_w h' = s_w h ->
      (forall t', In t' (members h) -> In t' (members h') \/ t' = t) -> desok h' -> VI h').
    { intros h' E1 E2 E3 E4 E5. apply (VI_gen h h' (User u) xs I E1).
      - intros q' k' H. rewrite E2 in H. left. exact H.
      - intros t' k' H. unfold hands in *. rewrite E3 in H. left. exact H.
      - intros k' [X|[X|[]]]; discriminate.
      - intros t'. left. rewrite E3. reflexivity.
      - intros t' X. discriminate.
      - intros t' [X|[X|[]]]; [discriminate|]. injection X as <-. split; [reflexivity|]. split; [exists u; reflexivity|exact EW].
      - intros t' X. destruct (E4 t' X) as [Y| ->]; [left; exact Y|]. right. rewrite E1. exact JT.
      - intros [X|[X|[]]]; discriminate.
      - exact E5. }
    destruct (destroying q) eqn:DQ.
    + destruct q; try discriminate; try contradiction. destruct P as [-> P]. apply G; try reflexivity; [intros t' X; left; exact X|].
      unfold desok in *. rewrite EU in D. cbn. destruct D as [D1 D2]. split; [exact D1|]. intros t' X. unfold members in *. cbn in X. destruct (D2 t' X) as [->|[Y|Y]]; [right; exact JT|left; exact Y|].
      right. apply joined_old. exact Y.
    + assert (SX : s_st h = Some u) by (destruct q; try discriminate; try contradiction; apply P).
      assert (ND : destroying (s_u h 0) = true -> False) by (intros E; pose proof (DS E); congruence).
      apply G; try reflexivity.
      * intros t' X. unfold members in *. cbn. apply in_app_or in X. destruct (Nat.eq_dec t' t) as [->|N]; [right; reflexivity|]. left. apply in_or_app.
        destruct X as [X|X]; [left; exact X|right; apply in_in_remove; assumption].
      * destruct (Nat.eq_dec u 0) as [->|N]; [unfold desok; cbn; destruct q; try contradiction; try discriminate; exact Logic.I|].
        eapply (desok_frame h _ _ D); [cbn; apply upd_other; lia|reflexivity|reflexivity|intros E; destruct (ND E)|auto].
  - destruct P as [-> P]. unfold desok in D. rewrite EU in D. destruct D as [D1 D2]. destruct todo as [|t r]; injection H as <-.
    + apply (VI_gen h _ (User 0) [SNote NDestroyed] I); try reflexivity.
      * intros q k H. left. exact H.
      * intros t k H. left. exact H.
      * intros k [X|[]]. discriminate.
      * intros t. left. reflexivity.
      * intros t X. discriminate.
      * intros t [X|[]]. discriminate.
      * intros t X. right. destruct (D2 t X) as [[]|Y]. apply joined_old. exact Y.
      * intros _. split; [reflexivity|]. intros t X. destruct (v_live h I t X) as [Y|Y]; [exact Y|]. destruct (D2 t Y) as [[]|Z]. exact Z.
    + apply (VI_user_plain h _ 0 [SAcq (LMtx t); SNote (NSet t InDestroy); SRel (LMtx t)] I); try reflexivity; [repeat constructor|auto|apply incl_refl|].
      unfold desok. cbn. split; [exact D1|]. intros t' X. destruct (D2 t' X) as [[Y|Y]|Y]; [left; congruence|right; left; exact Y|]. right. right. apply joined_old. exact Y.
Qed.

(** A step of pool thread [t], which is alive. *)
Lemma VI_pool h h' t v xs : VI h -> s_w h t <> WNone -> s_w h t <> WEnded -> s_log h' = s_log h ++ act (Pool t) xs -> s_u h' = s_u h -> s_st h' = s_st h ->
  s_prim h' = s_prim h -> s_list h' = s_list h -> s_w h' = upd (s_w h) t v -> v <> WNone -> (v = WEnded -> exists ys, xs = ys ++ [SRel (LEnd t)]) ->
  (forall q k, In k (s_q h' q) -> In k (s_q h q)) ->
  (forall k, hands h' t k -> hands h t k \/ exists i b, noted (s_log h') i b (NCommit k) /\ seen (s_log h') (Pool t) i) ->
  (forall k, In (SNote (NBegin k)) xs -> hands h t k) -> (forall t', ~ In (SNote (NJoined t')) xs) -> ~ In (SNote NDestroyed) xs -> VI h'.
Proof.
  intros I W1 W2 EL EU ES EP EI EW V1 V2 HQ HH HB HJ HD. apply (VI_gen h h' (Pool t) xs I EL).
  - intros q k H. left. apply HQ. exact H.
  - intros t' k H. destruct (Nat.eq_dec t' t) as [->|N]; [apply HH; exact H|]. left. unfold hands in *. rewrite EW, upd_other in H by exact N. exact H.
  - intros k H. exists t. split; [reflexivity|apply HB; exact H].
  - intros t'. rewrite EW. destruct (Nat.eq_dec t' t) as [->|N]; [|left; apply upd_other; exact N]. right. left. rewrite upd_same. auto.
  - intros t' E. injection E as <-. auto.
  - intros t' H. destruct (HJ t' H).
  - intros t' H. left. unfold members in *. rewrite EP, EI. exact H.
  - intros H. destruct (HD H).
  - eapply (desok_frame h h' _ (v_des h I)); [rewrite EU; reflexivity|exact EL|exact EP|auto|].
    intros t' W' _. rewrite EW, upd_other; [exact W'|]. intros ->. exact (W1 W').
Qed.

Lemma VI_call h u p : VI h -> s_u h u = UIdle -> (u = 0 -> desok (set_u h u p)) -> VI (set_u h u p).
Proof.
  intros I E D. apply (VI_user_plain h _ u [] I); try reflexivity; [unfold act; cbn [map]; rewrite app_nil_r; reflexivity|apply Forall_nil|auto|apply incl_refl|].
  destruct (Nat.eq_dec u 0) as [->|N]; [apply D; reflexivity|].
  eapply (desok_frame h _ [] (v_des h I)); [cbn; apply upd_other; lia|rewrite app_nil_r; reflexivity|reflexivity|auto|auto].
Qed.
Lemma idle_eq h u : idle h u = true -> s_u h u = UIdle.
Proof. unfold idle. destruct (s_u h u); congruence. Qed.
Lemma VI_say_user h u xs : VI h -> Forall plain_act xs -> VI (say h (User u) xs).
Proof.
  intros I F. apply (VI_user_plain h _ u xs I); try reflexivity; [exact F|auto|apply incl_refl|].
  eapply (desok_frame h _ _ (v_des h I)); [reflexivity|reflexivity|reflexivity|auto|auto].
Qed.

(** Tasks of a batch come from the queue. *)
Lemma rev_skipn_in {A} n (l : list A) x : In x (rev (skipn n l)) -> In x l.
Proof. intros H. apply in_rev in H. rewrite <- (firstn_skipn n l). apply in_or_app. right. exact H. Qed.
Lemma firstn_in' {A} n (l : list A) x : In x (firstn n l) -> In x l.
Proof. intros H. rewrite <- (firstn_skipn n l). apply in_or_app. left. exact H. Qed.
Lemma skipn_in' {A} n (l : list A) x : In x (skipn n l) -> In x l.
Proof. intros H. rewrite <- (firstn_skipn n l). apply in_or_app. right. exact H. Qed.

Lemma VI_step h l h' : FI h -> VI h -> stop_step h l = Some h' -> VI h'.
Proof.
  intros F I H. pose proof (v_des h I) as D. destruct l as [a k q|a t|u v|n m| |u n|u n|u|u b|t|t q n back|t|t|t asked awake]; cbn [stop_step] in H.
  - destruct (may_commit h a) eqn:M; [|discriminate]. injection H as <-.
    set (xs := [SNote (NCommit k); SAcq (LQueue q); SRel (LQueue q)]).
    set (h' := set_q (say h a xs) q (s_q h q ++ [k])).
    assert (NK : exists i b, noted (s_log h') i b (NCommit k) /\ kept (s_log h') (LQueue q) i).
    { assert (N : nth_error (s_log h ++ act a xs) (length (s_log h)) = Some (a, SNote (NCommit k))) by (rewrite nth_error_app2 by lia; rewrite Nat.sub_diag; reflexivity).
      exists (length (s_log h)), a. split; [exact N|]. change (s_log h') with (s_log h ++ act a xs).
      apply (new_rel _ _ [SNote (NCommit k); SAcq (LQueue q)] [] _ a _ (SNote (NCommit k))); [lia|cbn; lia|exact N]. }
    assert (DK : desok h') by (eapply (desok_frame h _ (act a xs) D); [reflexivity|reflexivity|reflexivity|auto|auto]).
    apply (VI_gen h h' a xs I); try reflexivity.
    + intros q' k' H. cbn [h' set_q s_q] in H. destruct (Nat.eq_dec q' q) as [->|N]; [|rewrite upd_other in H by exact N; left; exact H].
      rewrite upd_same in H. apply in_app_or in H. destruct H as [H|[<-|[]]]; [left; exact H|right; exact NK].
    + intros t' k' H. left. exact H.
    + intros k' [X|[X|[X|[]]]]; discriminate.
    + intros t'. left. reflexivity.
    + intros t' ->. cbn [may_commit] in M. destruct (s_w h t'); try discriminate. split; discriminate.
    + intros t' [X|[X|[X|[]]]]; discriminate.
    + intros t' X. left. exact X.
    + intros [X|[X|[X|[]]]]; discriminate.
    + exact DK.
  - destruct (may_commit h a) eqn:M; [|discriminate]. injection H as <-. destruct a as [u|t']; [apply VI_say_user; [exact I|repeat constructor]|].
    cbn [may_commit] in M. destruct (s_w h t') eqn:EW; try discriminate.
    apply (VI_gen h _ (Pool t') [SAcq (LMtx t); SRel (LMtx t)] I); try reflexivity.
    + intros q' k' H. left. exact H.
    + intros t2 k' H. left. exact H.
    + intros k' [X|[X|[]]]; discriminate.
    + intros t2. left. reflexivity.
    + intros t2 E. injection E as <-. split; congruence.
    + intros t2 [X|[X|[]]]; discriminate.
    + intros t2 X. left. exact X.
    + intros [X|[X|[]]]; discriminate.
    + eapply (desok_frame h _ _ D); [reflexivity|reflexivity|reflexivity|auto|auto].
  - destruct (idle h u && idle h v); [|discriminate]. injection H as <-. apply VI_say_user; [apply VI_say_user; [exact I|repeat constructor]|repeat constructor].
  - destruct (idle h 0) eqn:ID; [|discriminate]. destruct (s_on h); [discriminate|]. destruct (s_prim h) as [|x xs] eqn:EP; [|discriminate]. injection H as <-.
    destruct (births_VI n h F I ID) as (J1 & J2 & J3 & J4). destruct (births_FI n h F) as (_ & K & _). apply VI_call; [exact J1|rewrite K; apply idle_eq; exact ID|].
    intros _. unfold desok. cbn [set_u s_u]. rewrite upd_same. cbn [set_u s_w s_prim]. rewrite J3, EP. cbn [app]. split; [apply seq_NoDup|]. intros t H. split; [|exact H].
    rewrite J4. apply (fi_none h F). apply in_seq in H. lia.
  - destruct (idle h 0) eqn:ID; [|discriminate]. destruct (s_on h); [|discriminate]. destruct (s_st h) eqn:ST; [discriminate|]. injection H as <-.
    apply VI_call; [exact I|apply idle_eq; exact ID|]. intros _. unfold desok. cbn [set_u s_u]. rewrite upd_same. split; [exact ST|]. intros t H. left. exact H.
  - destruct (idle h u) eqn:ID; [|discriminate]. injection H as <-. apply VI_call; [exact I|apply idle_eq; exact ID|]. intros ->. exact Logic.I.
  - destruct (idle h u) eqn:ID; [|discriminate]. injection H as <-. apply VI_call; [exact I|apply idle_eq; exact ID|]. intros ->. exact Logic.I.
  - destruct (idle h u) eqn:ID; [|discriminate]. injection H as <-. apply VI_call; [exact I|apply idle_eq; exact ID|]. intros ->. exact Logic.I.
  - eapply VI_user; eassumption.
  - destruct (s_w h t) as [| | | | |[|k ks]|k ks|] eqn:EH; try discriminate.
    + injection H as <-. apply (VI_pool h _ t WLoop [SAcq (LNew t)] I); try reflexivity; try congruence; try (intros; discriminate); auto.
      * intros k H. unfold hands in H. cbn [say set_w s_w] in H. rewrite upd_same in H. destruct H.
      * intros k [X|[]]; discriminate.
      * intros t' [X|[]]; discriminate.
      * intros [X|[]]; discriminate.
    + destruct (s_f h t); injection H as <-.
      * apply (VI_pool h _ t WSeek [SNote (NGet t InLoop)] I); try reflexivity; try congruence; try (intros; discriminate); auto.
        { intros k H. unfold hands in H. cbn [say set_w s_w] in H. rewrite upd_same in H. destruct H. }
        { intros k [X|[]]; discriminate. }
        { intros t' [X|[]]; discriminate. }
        { intros [X|[]]; discriminate. }
      * apply (VI_pool h _ t WEnded [SNote (NGet t InLoop); SRel (LEnd t)] I); try reflexivity; try congruence; auto.
        { intros _. exists [SNote (NGet t InLoop)]. reflexivity. }
        { intros k H. unfold hands in H. cbn [say set_w s_w] in H. rewrite upd_same in H. destruct H. }
        { intros k [X|[X|[]]]; discriminate. }
        { intros t' [X|[X|[]]]; discriminate. }
        { intros [X|[X|[]]]; discriminate. }
    + injection H as <-. apply (VI_pool h _ t WLoop [] I); try reflexivity; try congruence; try (intros; discriminate); auto.
      * unfold act. cbn [map]. rewrite app_nil_r. reflexivity.
      * intros k H. unfold hands in H. cbn [say set_w s_w] in H. rewrite upd_same in H. destruct H.
      * intros k [].
    + injection H as <-. apply (VI_pool h _ t (WBusy k ks) [SNote (NBegin k)] I); try reflexivity; try congruence; try (intros; discriminate); auto.
      * intros k' H. left. unfold hands in *. cbn [say set_w s_w] in H. rewrite upd_same in H. rewrite EH. right. exact H.
      * intros k' [X|[]]. injection X as <-. unfold hands. rewrite EH. left. reflexivity.
      * intros t' [X|[]]; discriminate.
      * intros [X|[]]; discriminate.
    + injection H as <-. apply (VI_pool h _ t (WHave ks) [SNote (NEnd k)] I); try reflexivity; try congruence; try (intros; discriminate); auto.
      * intros k' H. left. unfold hands in *. cbn [say set_w s_w] in H. rewrite upd_same in H. rewrite EH. exact H.
      * intros k' [X|[]]; discriminate.
      * intros t' [X|[]]; discriminate.
      * intros [X|[]]; discriminate.
  - destruct (s_w h t) eqn:EH; try discriminate. injection H as <-.
    set (got := if back then rev (skipn (length (s_q h q) - n) (s_q h q)) else firstn n (s_q h q)).
    set (rest := if back then firstn (length (s_q h q) - n) (s_q h q) else skipn n (s_q h q)).
    assert (G1 : forall k, In k got -> In k (s_q h q)) by (intros k; unfold got; destruct back; [apply rev_skipn_in|apply firstn_in']).
    assert (G2 : forall k, In k rest -> In k (s_q h q)) by (intros k; unfold rest; destruct back; [apply firstn_in'|apply skipn_in']).
    apply (VI_pool h _ t (WHave got) [SAcq (LQueue q); SRel (LQueue q)] I); try reflexivity; try congruence; try (intros; discriminate).
    + intros q' k H. cbn [say set_q set_w s_q] in H. destruct (Nat.eq_dec q' q) as [->|N]; [rewrite upd_same in H; apply G2; exact H|]. rewrite upd_other in H by exact N. exact H.
    + intros k H. unfold hands in H. cbn [say set_q set_w s_w] in H. rewrite upd_same in H. right. destruct (v_q h I q k (G1 k H)) as (i & b & N & K).
      exists i, b. split; [apply noted_old; exact N|]. eapply kept_acq; [exact K|left; reflexivity].
    + intros k [X|[X|[]]]; discriminate.
    + intros t' [X|[X|[]]]; discriminate.
    + intros [X|[X|[]]]; discriminate.
  - destruct (s_w h t) eqn:EH; try discriminate. injection H as <-. apply (VI_pool h _ t WLoop [] I); try reflexivity; try congruence; try (intros; discriminate); auto.
    + unfold act. cbn [map]. rewrite app_nil_r. reflexivity.
    + intros k H. unfold hands in H. cbn [say set_w s_w] in H. rewrite upd_same in H. destruct H.
    + intros k [].
  - destruct (s_w h t) eqn:EH; try discriminate. destruct (s_sec h t); [discriminate|]. injection H as <-. apply (VI_pool h _ t WWait [] I); try reflexivity; try congruence; try (intros; discriminate); auto.
    + unfold act. cbn [map]. rewrite app_nil_r. reflexivity.
    + intros k H. unfold hands in H. cbn [say set_w s_w] in H. rewrite upd_same in H. destruct H.
    + intros k [].
  - destruct (s_w h t) eqn:EH; try discriminate. injection H as <-.
    set (v := if awake || negb (s_f h t) then WLoop else WWait). assert (V : v = WLoop \/ v = WWait) by (unfold v; destruct (awake || negb (s_f h t)); auto).
    set (xs := SAcq (LMtx t) :: (if asked then [SAcq (LQueue 0); SRel (LQueue 0)] else []) ++ [SNote (NGet t InWait); SRel (LMtx t)]).
    assert (NX : forall nt, In (SNote nt) xs -> nt = NGet t InWait).
    { intros nt [X|X]; [discriminate|]. apply in_app_or in X. destruct X as [X|X].
      - destruct asked; [|destruct X]. destruct X as [X|[X|[]]]; discriminate.
      - destruct X as [X|[X|[]]]; [congruence|discriminate]. }
    apply (VI_pool h _ t v xs I); try reflexivity; try (destruct V; congruence); auto.
    + intros k H. unfold hands in H. cbn [say set_w s_w] in H. rewrite upd_same in H. destruct V as [-> | ->]; destruct H.
    + intros k H. apply NX in H. discriminate.
    + intros t' H. apply NX in H. discriminate.
    + intros H. apply NX in H. discriminate.
Qed.

Lemma VI_init : VI s_init.
Proof.
  assert (N : forall i x, ~ nth_error (s_log s_init) i = Some x) by (intros i x H; cbn in H; destruct i; discriminate).
  constructor.
  - intros q k [].
  - intros t k [].
  - intros j b k H. destruct (N _ _ H).
  - intros t i x _ H. destruct (N _ _ H).
  - intros t i x H. destruct (N _ _ H).
  - intros j a t H. destruct (N _ _ H).
  - intros t H. destruct (H eq_refl).
  - intros j a H. destruct (N _ _ H).
  - exact Logic.I.
Qed.
Lemma VI_run ls h : stop_run ls h -> VI h.
Proof. induction 1 as [|ls l h h' R IH E]; [apply VI_init|]. eapply VI_step; [eapply FI_run; exact R|exact IH|exact E]. Qed.
