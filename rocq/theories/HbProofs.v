(** What every thread and every synchronisation object knows, and that along dependencies it is enough. *)
From Verif Require Import GraphModel GraphSpec TopoProofs StaticModel StaticProofs StatusProofs DynModel DynInv DynProofs DynTerm DynProps HbSpec HbModel.
From Coq Require Import Lia.
Local Open Scope nat_scope.

Definition hloc_eq (a b : hloc) : {a = b} + {a <> b}.
Proof. decide equality; apply Nat.eq_dec. Defined.

(** ** Positions known to a thread, and carried by an object *)
Record kn := mkK { kt : nat -> list nat; kl : hloc -> list nat }.
Definition set_t (f : nat -> list nat) (t : nat) (v : list nat) : nat -> list nat := fun x => if Nat.eqb x t then v else f x.
Definition set_l (f : hloc -> list nat) (l : hloc) (v : list nat) : hloc -> list nat := fun x => if hloc_eq x l then v else f x.
Definition kstep (n : nat) (k : kn) (ev : nat * hact) : kn :=
  let t := fst ev in
  match snd ev with
  | HNote _ => mkK (set_t (kt k) t (n :: kt k t)) (kl k)
  | HStore l => mkK (set_t (kt k) t (n :: kt k t)) (set_l (kl k) l (n :: kt k t))
  | HLoad l | HLock l => mkK (set_t (kt k) t (n :: kl k l ++ kt k t)) (kl k)
  | HRmw l => mkK (set_t (kt k) t (n :: kl k l ++ kt k t)) (set_l (kl k) l (n :: kl k l ++ kt k t))
  | HRel l | HUnlock l => mkK (set_t (kt k) t (n :: kt k t)) (set_l (kl k) l (n :: kl k l ++ kt k t))
  end.
Fixpoint kfold (n : nat) (k : kn) (m : hlog) : kn := match m with [] => k | ev :: r => kfold (S n) (kstep n k ev) r end.
Definition know (m : hlog) : kn := kfold 0 (mkK (fun _ => []) (fun _ => [])) m.

Lemma kfold_app m1 m2 : forall n k, kfold n k (m1 ++ m2) = kfold (n + length m1) (kfold n k m1) m2.
Proof.
  induction m1 as [|ev m1 IH]; intros n k; simpl; [rewrite Nat.add_0_r; reflexivity|]. rewrite IH. f_equal. lia.
Qed.
Lemma know_app m1 m2 : know (m1 ++ m2) = kfold (length m1) (know m1) m2.
Proof. unfold know. rewrite kfold_app. reflexivity. Qed.
Lemma know_snoc m ev : know (m ++ [ev]) = kstep (length m) (know m) ev.
Proof. rewrite know_app. reflexivity. Qed.

Lemma set_t_eq f t v : set_t f t v t = v.
Proof. unfold set_t. rewrite Nat.eqb_refl. reflexivity. Qed.
Lemma set_l_eq f l v : set_l f l v l = v.
Proof. unfold set_l. destruct (hloc_eq l l); congruence. Qed.

Lemma nth_old {A} (m : list A) ext i x : nth_error m i = Some x -> nth_error (m ++ ext) i = Some x.
Proof. intros H. rewrite nth_error_app1; [exact H|]. apply nth_error_Some. congruence. Qed.
Lemma nth_snoc {A} (m : list A) x : nth_error (m ++ [x]) (length m) = Some x.
Proof. rewrite nth_error_app2 by lia. rewrite Nat.sub_diag. reflexivity. Qed.
Lemma nth_lt {A} (m : list A) i x : nth_error m i = Some x -> i < length m.
Proof. intros H. apply nth_error_Some. congruence. Qed.

Lemma hb_lt m i j : happens_before m i j -> i < j /\ j < length m.
Proof. induction 1; [split; [assumption|eapply nth_lt; eassumption]|split; [assumption|eapply nth_lt; eassumption]|lia]. Qed.
Lemma hb_app m ext i j : happens_before m i j -> happens_before (m ++ ext) i j.
Proof.
  induction 1.
  - eapply hb_thread; [eassumption|apply nth_old; eassumption|apply nth_old; eassumption].
  - eapply hb_sync; [eassumption|apply nth_old; eassumption|apply nth_old; eassumption|eassumption|eassumption|].
    intros k v H5 H6. assert (k < length m) by (pose proof (nth_lt _ _ _ H1); lia). rewrite nth_error_app1 by assumption. auto.
  - eapply hb_trans; eassumption.
Qed.

Definition sound (m : hlog) (k : kn) : Prop :=
  (forall t i, In i (kt k t) -> exists j b, nth_error m j = Some (t, b) /\ (i = j \/ happens_before m i j)) /\
  (forall l i, In i (kl k l) -> exists j t a, nth_error m j = Some (t, a) /\ releases a l /\
       (forall q v, j < q -> nth_error m q <> Some (v, HStore l)) /\ (i = j \/ happens_before m i j)).

Lemma sound_step m k ev : sound m k -> sound (m ++ [ev]) (kstep (length m) k ev).
Proof.
  intros [S1 S2]. destruct ev as [t a].
  assert (Hn : nth_error (m ++ [(t, a)]) (length m) = Some (t, a)) by apply nth_snoc.
  assert (O1 : forall i j, i = j \/ happens_before m i j -> i = j \/ happens_before (m ++ [(t, a)]) i j)
    by (intros i j [H|H]; [left; exact H|right; apply hb_app; exact H]).
  assert (T1 : forall u i, In i (kt k u) -> exists j b, nth_error (m ++ [(t, a)]) j = Some (u, b) /\ (i = j \/ happens_before (m ++ [(t, a)]) i j)).
  { intros u i H. destruct (S1 u i H) as [j [b [E R]]]. exists j, b. split; [apply nth_old; exact E|auto]. }
  assert (T2 : forall i, In i (kt k t) -> happens_before (m ++ [(t, a)]) i (length m)).
  { intros i H. destruct (S1 t i H) as [j [b [E R]]]. assert (P : happens_before (m ++ [(t, a)]) j (length m)).
    { eapply hb_thread; [eapply nth_lt; exact E|apply nth_old; exact E|exact Hn]. }
    destruct R as [->|R]; [exact P|]. eapply hb_trans; [apply hb_app; exact R|exact P]. }
  assert (L1 : forall l i, In i (kl k l) -> acquires a l -> happens_before (m ++ [(t, a)]) i (length m)).
  { intros l i H Q. destruct (S2 l i H) as [j [u [b [E [Rl [Ns R]]]]]]. assert (P : happens_before (m ++ [(t, a)]) j (length m)).
    { eapply hb_sync; [eapply nth_lt; exact E|apply nth_old; exact E|exact Hn|exact Rl|exact Q|].
      intros q v H1 H2. rewrite nth_error_app1 by exact H2. apply Ns; exact H1. }
    destruct R as [->|R]; [exact P|]. eapply hb_trans; [apply hb_app; exact R|exact P]. }
  assert (L2 : forall l i, a <> HStore l -> In i (kl k l) -> exists j u b, nth_error (m ++ [(t, a)]) j = Some (u, b) /\ releases b l /\
       (forall q v, j < q -> nth_error (m ++ [(t, a)]) q <> Some (v, HStore l)) /\ (i = j \/ happens_before (m ++ [(t, a)]) i j)).
  { intros l i Hne H. destruct (S2 l i H) as [j [u [b [E [Rl [Ns R]]]]]]. exists j, u, b. split; [apply nth_old; exact E|]. split; [exact Rl|]. split; [|auto].
    intros q v Hq E2. destruct (Nat.lt_ge_cases q (length m)) as [H2|H2].
    - rewrite nth_error_app1 in E2 by exact H2. exact (Ns q v Hq E2).
    - pose proof (nth_lt _ _ _ E2) as H3. rewrite app_length in H3. simpl in H3. replace q with (length m) in E2 by lia. rewrite Hn in E2. congruence. }
  assert (N : forall l i, releases a l -> (i = length m \/ happens_before (m ++ [(t, a)]) i (length m)) -> exists j u b, nth_error (m ++ [(t, a)]) j = Some (u, b) /\ releases b l /\
       (forall q v, j < q -> nth_error (m ++ [(t, a)]) q <> Some (v, HStore l)) /\ (i = j \/ happens_before (m ++ [(t, a)]) i j)).
  { intros l i Rl R. exists (length m), t, a. split; [exact Hn|]. split; [exact Rl|]. split; [|exact R].
    intros q v Hq E2. pose proof (nth_lt _ _ _ E2) as H3. rewrite app_length in H3. simpl in H3. lia. }
  split.
  - intros u i H.
    assert (G : forall v, In i (set_t (kt k) t v u) -> (In i v -> i = length m \/ happens_before (m ++ [(t, a)]) i (length m)) ->
                exists j b, nth_error (m ++ [(t, a)]) j = Some (u, b) /\ (i = j \/ happens_before (m ++ [(t, a)]) i j)).
    { intros v Hv Hs. unfold set_t in Hv. destruct (Nat.eqb_spec u t) as [->|]; [|apply T1; exact Hv]. exists (length m), a. split; [exact Hn|]. apply Hs; exact Hv. }
    unfold kstep in H. cbn [fst snd] in H. destruct a; cbn [kt] in H; (eapply G; [exact H|]); intros Hv; destruct Hv as [Hv|Hv]; try (left; symmetry; exact Hv); right.
    all: try (apply in_app_or in Hv; destruct Hv as [Hv|Hv]); try (apply T2; exact Hv).
    all: eapply L1; [exact Hv|]; unfold acquires; auto.
  - intros q i H. unfold kstep in H. cbn [fst snd] in H. destruct a; cbn [kl] in H; try (apply L2; [discriminate|exact H]).
    all: unfold set_l in H; destruct (hloc_eq q l) as [->|Hne]; [|apply L2; [congruence|exact H]].
    all: destruct H as [H|H]; try (apply in_app_or in H; destruct H as [H|H]).
    all: try (apply N; [unfold releases; auto|]; first [left; symmetry; exact H|right; apply T2; exact H|solve [right; eapply L1; [exact H|unfold acquires; auto]]]).
    all: apply L2; [discriminate|exact H].
Qed.

Lemma know_sound m : sound m (know m).
Proof.
  induction m as [|ev m IH] using rev_ind; [|rewrite know_snoc; apply sound_step; exact IH].
  split; [intros t i []|intros l i []].
Qed.
Lemma kt_lt m t i : In i (kt (know m) t) -> i < length m.
Proof. intros H. destruct (proj1 (know_sound m) t i H) as [j [b [E [->|R]]]]; [eapply nth_lt; exact E|]. apply hb_lt in R. lia. Qed.
Lemma kl_lt m l i : In i (kl (know m) l) -> i < length m.
Proof. intros H. destruct (proj2 (know_sound m) l i H) as [j [t [a [E [_ [_ [->|R]]]]]]]; [eapply nth_lt; exact E|]. apply hb_lt in R. lia. Qed.
(** What a thread knows happens before whatever it does next. *)
Lemma know_hb m ext t i j b : In i (kt (know m) t) -> length m <= j -> nth_error (m ++ ext) j = Some (t, b) -> happens_before (m ++ ext) i j.
Proof.
  intros H L E. destruct (proj1 (know_sound m) t i H) as [j0 [b0 [E0 R]]].
  assert (P : happens_before (m ++ ext) j0 j).
  { eapply hb_thread; [pose proof (nth_lt _ _ _ E0); lia|apply nth_old; exact E0|exact E]. }
  destruct R as [->|R]; [exact P|]. eapply hb_trans; [apply hb_app; exact R|exact P].
Qed.

(** ** Knowledge grows *)
Lemma kstep_t n k ev t : incl (kt k t) (kt (kstep n k ev) t).
Proof.
  destruct ev as [u a]. intros i H. unfold kstep. cbn [fst snd]. destruct a; cbn [kt]; unfold set_t; destruct (Nat.eqb_spec t u) as [->|]; try exact H; right; try exact H; apply in_or_app; right; exact H.
Qed.
Lemma kstep_own n k u a : In n (kt (kstep n k (u, a)) u).
Proof. unfold kstep. cbn [fst snd]. destruct a; cbn [kt]; rewrite set_t_eq; left; reflexivity. Qed.
Lemma kstep_l n k ev l : snd ev <> HStore l -> incl (kl k l) (kl (kstep n k ev) l).
Proof.
  destruct ev as [u a]. cbn [snd]. intros Hne i H. unfold kstep. cbn [fst snd]. destruct a; cbn [kl]; try exact H; unfold set_l; destruct (hloc_eq l l0) as [->|]; try exact H; try congruence; right; apply in_or_app; left; exact H.
Qed.
Lemma kfold_t ext : forall n k t, incl (kt k t) (kt (kfold n k ext) t).
Proof. induction ext as [|ev ext IH]; intros n k t i H; simpl; [exact H|]. apply IH. apply kstep_t. exact H. Qed.
Lemma kfold_l ext l : (forall t, ~ In (t, HStore l) ext) -> forall n k, incl (kl k l) (kl (kfold n k ext) l).
Proof.
  induction ext as [|ev ext IH]; intros Hne n k i H; simpl; [exact H|]. apply IH; [intros t Hin; apply (Hne t); right; exact Hin|].
  apply kstep_l; [|exact H]. intros E. destruct ev as [t a]. apply (Hne t). left. cbn [snd] in E. subst a. reflexivity.
Qed.
Lemma know_t m ext t : incl (kt (know m) t) (kt (know (m ++ ext)) t).
Proof. rewrite know_app. apply kfold_t. Qed.
Lemma know_l m ext l : (forall t, ~ In (t, HStore l) ext) -> incl (kl (know m) l) (kl (know (m ++ ext)) l).
Proof. intros H. rewrite know_app. apply kfold_l. exact H. Qed.
Lemma know_own m i t a : nth_error m i = Some (t, a) -> In i (kt (know m) t).
Proof.
  revert i. induction m as [|ev m IH] using rev_ind; intros i H; [destruct i; discriminate|]. rewrite know_snoc.
  destruct (Nat.lt_ge_cases i (length m)) as [L|L].
  - rewrite nth_error_app1 in H by exact L. apply kstep_t. apply IH. exact H.
  - pose proof (nth_lt _ _ _ H) as H3. rewrite app_length in H3. simpl in H3. replace i with (length m) in H |- * by lia. rewrite nth_snoc in H. injection H as ->. apply kstep_own.
Qed.

(** ** Finishes that are known *)
Definition kfin (m : hlog) (P : list nat) (e : nat) : Prop := exists i r, In i P /\ at_ m i (NFinish e r).
Lemma at_app m ext i n : at_ m i n -> at_ (m ++ ext) i n.
Proof. intros [t H]. exists t. apply nth_old. exact H. Qed.
Lemma kfin_mono m ext P P' e : incl P P' -> kfin m P e -> kfin (m ++ ext) P' e.
Proof. intros H [i [r [Hi Ha]]]. exists i, r. split; [apply H; exact Hi|apply at_app; exact Ha]. Qed.

(** The elements seen in a log. *)
Definition ev_of (ev : nat * hact) : list gevent :=
  match snd ev with HNote (NStart e) => [GStart e] | HNote (NFinish e r) => [GFinish e r] | _ => [] end.
Definition trace_of (m : hlog) : list gevent := flat_map ev_of m.
Lemma trace_of_app m1 m2 : trace_of (m1 ++ m2) = trace_of m1 ++ trace_of m2.
Proof. apply flat_map_app. Qed.

Section Eng.
Context (c : dcfg) (Hwf : wf (c_g c)) (Hac : acyclic (c_g c)).
Notation g := (c_g c).

Definition closed (m : hlog) (P : list nat) : Prop := forall a e, In a (dep g e) -> kfin m P e -> kfin m P a.
Definition deps_known (m : hlog) (P : list nat) (e : nat) : Prop := forall d, In d (dep g e) -> kfin m P d.
(** Everything the caller did before the elements were handed out. *)
Definition full (b : nat) (m : hlog) (P : list nat) : Prop := forall i a, i < b -> nth_error m i = Some (0, a) -> In i P.

Definition okop (b : nat) (m : hlog) (P : list nat) (o : op) : Prop :=
  match o with
  | OProc e _ | OEnq e | OExec e | OBody e => full b m P /\ deps_known m P e
  | OErr _ _ => full b m P
  | OAfter e | OTail e => full b m P /\ kfin m P e
  | ODecs e l res => (l <> [] -> full b m P /\ kfin m P e) /\ (forall x, res = Some x -> full b m P /\ deps_known m P x)
  | ONotify | OLockNotify => True
  end.

Lemma full_mono b m ext P P' : b <= length m -> incl P P' -> full b m P -> full b (m ++ ext) P'.
Proof. intros L H F i a Hi E. apply H. rewrite nth_error_app1 in E by lia. eapply F; eassumption. Qed.
Lemma deps_mono m ext P P' e : incl P P' -> deps_known m P e -> deps_known (m ++ ext) P' e.
Proof. intros H D d Hd. eapply kfin_mono; [exact H|]. apply D. exact Hd. Qed.
Lemma okop_mono b m ext P P' o : b <= length m -> incl P P' -> okop b m P o -> okop b (m ++ ext) P' o.
Proof.
  intros L H. pose proof (full_mono b m ext P P' L H) as F. pose proof (fun e => deps_mono m ext P P' e H) as D. pose proof (fun e => kfin_mono m ext P P' e H) as K.
  destruct o as [e a|e|e|e|e r0| |e|e l res|e|]; cbn [okop]; auto; try (intros [H1 H2]; split; auto; fail).
  intros [H1 H2]. split; [intros Hl; destruct (H1 Hl); auto|]. intros x Hx. destruct (H2 x Hx); auto.
Qed.

(** *** Closure *)
Definition all_closed (m : hlog) : Prop := (forall t, closed m (kt (know m) t)) /\ (forall l, closed m (kl (know m) l)).

Lemma kfin_old m ev P e : (forall i, In i P -> i < length m) -> kfin (m ++ [ev]) P e -> kfin m P e.
Proof.
  intros L [i [r [Hi [t E]]]]. exists i, r. split; [exact Hi|]. exists t. rewrite nth_error_app1 in E by (apply L; exact Hi). exact E.
Qed.
Lemma closed_step m ev : all_closed m -> (forall e r, snd ev = HNote (NFinish e r) -> deps_known m (kt (know m) (fst ev)) e) -> all_closed (m ++ [ev]).
Proof.
  intros [C1 C2] Hf. destruct ev as [t a]. cbn [fst snd] in Hf.
  (* unions *)
  assert (U : forall P Q, closed (m ++ [(t, a)]) P -> closed (m ++ [(t, a)]) Q -> closed (m ++ [(t, a)]) (P ++ Q)).
  { intros P Q HP HQ x e Hx [i [r [Hi Ha]]]. apply in_app_or in Hi. destruct Hi as [Hi|Hi].
    - destruct (HP x e Hx) as [i2 [r2 [H1 H2]]]; [exists i, r; auto|]. exists i2, r2. split; [apply in_or_app; left; exact H1|exact H2].
    - destruct (HQ x e Hx) as [i2 [r2 [H1 H2]]]; [exists i, r; auto|]. exists i2, r2. split; [apply in_or_app; right; exact H1|exact H2]. }
  assert (K1 : forall u, closed (m ++ [(t, a)]) (kt (know m) u)).
  { intros u x e Hx H. apply kfin_old in H; [|intros i Hi; eapply kt_lt; exact Hi]. eapply kfin_mono; [apply incl_refl|]. eapply C1; eassumption. }
  assert (K2 : forall l, closed (m ++ [(t, a)]) (kl (know m) l)).
  { intros l x e Hx H. apply kfin_old in H; [|intros i Hi; eapply kl_lt; exact Hi]. eapply kfin_mono; [apply incl_refl|]. eapply C2; eassumption. }
  assert (N : forall P, closed (m ++ [(t, a)]) P -> incl (kt (know m) t) P -> closed (m ++ [(t, a)]) (length m :: P)).
  { intros P HP Hi x e Hx [i [r [Hin Ha]]]. destruct Hin as [<-|Hin].
    - destruct Ha as [u Ha]. rewrite nth_snoc in Ha. injection Ha as -> Ha.
      destruct (Hf e r Ha x Hx) as [i2 [r2 [H1 H2]]]. exists i2, r2. split; [right; apply Hi; exact H1|apply at_app; exact H2].
    - destruct (HP x e Hx) as [i2 [r2 [H1 H2]]]; [exists i, r; auto|]. exists i2, r2. split; [right; exact H1|exact H2]. }
  assert (A : forall l, incl (kt (know m) t) (kl (know m) l ++ kt (know m) t)) by (intros l i Hi; apply in_or_app; right; exact Hi).
  pose proof (N _ (K1 t) (incl_refl _)) as N1. pose proof (fun l => N _ (U _ _ (K2 l) (K1 t)) (A l)) as N2.
  split.
  - intros u. rewrite know_snoc. unfold kstep. cbn [fst snd]. destruct a; cbn [kt]; unfold set_t; destruct (Nat.eqb_spec u t) as [->|]; auto.
  - intros q. rewrite know_snoc. unfold kstep. cbn [fst snd]. destruct a; cbn [kl]; unfold set_l; auto; destruct (hloc_eq q l) as [->|]; auto.
Qed.
Lemma closed_ext ext : forall m, all_closed m -> (forall t e r, ~ In (t, HNote (NFinish e r)) ext) -> all_closed (m ++ ext).
Proof.
  induction ext as [|ev ext IH]; intros m C H; [rewrite app_nil_r; exact C|].
  change (ev :: ext) with ([ev] ++ ext). rewrite app_assoc. apply IH; [|intros t e r Hin; apply (H t e r); right; exact Hin].
  apply closed_step; [exact C|]. intros e r E. exfalso. destruct ev as [t a]. apply (H t e r). left. cbn [snd] in E. rewrite E. reflexivity.
Qed.

(** *** The counters *)
Definition left_inv (sh : shared) (B : list op) (m : hlog) : Prop :=
  forall e, In e (els g) -> cnt e (starts (sh_tr sh)) = 0 ->
  exists D, NoDup D /\ incl D (dep g e) /\
    (forall d, In d D -> kfin m (kl (know m) (HLeft e)) d /\ finok (sh_tr sh) d = 1 /\ sumf (f_pend c d e) B = 0) /\
    (Z.of_nat (length (dep g e)) <= sh_left sh e + Z.of_nat (length D))%Z.
Definition fin_inv (sh : shared) (B : list op) (m : hlog) : Prop :=
  exists D, NoDup D /\ incl D (ends g) /\ length D = sh_fin sh /\
    (forall d, In d D -> kfin m (kl (know m) HFin) d /\ finok (sh_tr sh) d = 1 /\ sumf (f_tail d) B + sumf (f_aft d) B = 0).

Lemma pend_new sh o r sh' new enq nt d e : op_sem c sh o r = (sh', new, enq, nt) ->
  finok (sh_tr sh) d <= finok (sh_tr sh') d /\
  sumf (f_pend c d e) new <= f_pend c d e o + (finok (sh_tr sh') d - finok (sh_tr sh) d) /\
  sumf (f_tail d) new + sumf (f_aft d) new <= f_tail d o + f_aft d o + (finok (sh_tr sh') d - finok (sh_tr sh) d) /\
  cnt e (starts (sh_tr sh)) <= cnt e (starts (sh_tr sh')).
Proof.
  intros H. destruct o as [x a|x|x|x|x r0| |x|x l res|x|]; cbn [op_sem] in H.
  - destruct (isErr (sh_stat sh)); [|destruct (a && is_default c x)]; inversion H; subst; simpl; lia.
  - inversion H; subst; simpl; lia.
  - inversion H; subst; cbn [sh_tr]. rewrite finok_start, cnt_starts_st. simpl. lia.
  - destruct (isErr r) eqn:Er; inversion H; subst; cbn [sh_tr]; rewrite finok_finish, starts_fin, Er; simpl.
    + rewrite andb_false_r. lia.
    + rewrite andb_true_r. destruct (Nat.eqb x d); simpl; [|lia]. destruct (memb e (succ g d)); simpl; lia.
  - inversion H; subst; simpl; lia.
  - inversion H; subst; simpl; lia.
  - destruct (isErr (sh_stat sh)); [inversion H; subst; simpl; lia|].
    destruct (calc_shape g (c_bind c) x); inversion H; subst.
    + cbn [sumf f_pend f_tail f_aft]. destruct (Nat.eqb_spec x d) as [->|]; simpl; lia.
    + destruct (succ g x); simpl; lia.
    + assert (Z : forall f : op -> nat, (forall y a, f (OProc y a) = 0) -> forall (h : nat -> bool) l, sumf f (map (fun y => OProc y (h y)) l) = 0).
      { intros f Hf h l. apply sumf_zero. intros o Ho. apply in_map_iff in Ho. destruct Ho as [y [<- _]]. apply Hf. }
      rewrite !Z by reflexivity. lia.
    + simpl. lia.
  - destruct l as [|y l]; [destruct res; inversion H; subst; simpl; lia|].
    assert (M : b2n (Nat.eqb x d && memb e l) <= b2n (Nat.eqb x d && memb e (y :: l))).
    { destruct (Nat.eqb x d); simpl; [|lia]. destruct (Nat.eqb e y) eqn:Eb; simpl; [destruct (memb e l); simpl; lia|]. lia. }
    destruct (sh_left sh y - 1 =? 0)%Z; [destruct res|]; inversion H; subst; cbn [sumf f_pend f_tail f_aft sh_tr]; lia.
  - destruct (Nat.eqb (S (sh_fin sh)) (total_end c)) eqn:Q; injection H as <- <- <- <-; cbn [sumf f_pend f_tail f_aft sh_tr]; lia.
  - inversion H; subst; simpl; lia.
Qed.

(** *** One log and one bag of operations *)
Record Core (b : nat) (sh : shared) (B : list op) (m : hlog) : Prop := {
  co_b : b <= length m;
  co_b0 : 0 < b;
  co_closed : all_closed m;
  co_left : left_inv sh B m;
  co_fin : fin_inv sh B m;
  co_tr : trace_of m = sh_tr sh;
  co_start : forall j e, at_ m j (NStart e) -> forall d, path g d e -> exists i r, at_ m i (NFinish d r) /\ happens_before m i j;
  co_notes : forall j n i a, at_ m j n -> b <= j -> i < b -> nth_error m i = Some (0, a) -> happens_before m i j;
  co_before : forall j n t, j < b -> nth_error m j = Some (t, HNote n) -> t = 0 /\ (n = NCall \/ n = NRead \/ n = NWrite);
  co_write : forall j, b <= j -> at_ m j NWrite -> exists e r, In (GFinish e r) (sh_tr sh) /\ (code r < 0)%Z;
  co_ret : forall j st, at_ m j (NRet st) -> isErr st = false -> forall e, In e (els g) -> exists i r, at_ m i (NFinish e r) /\ happens_before m i j
}.

Lemma by_nth t l j u a : nth_error (by_ t l) j = Some (u, a) -> u = t /\ In a l.
Proof.
  unfold by_. rewrite nth_error_map. destruct (nth_error l j) as [x|] eqn:E; [|discriminate]. simpl. intros H. injection H as <- <-. split; [reflexivity|]. eapply nth_error_In; exact E.
Qed.
Lemma in_by t l u a : In (u, a) (by_ t l) -> u = t /\ In a l.
Proof. unfold by_. intros H. apply in_map_iff in H. destruct H as [x [E H]]. injection E as <- <-. auto. Qed.
Lemma at_ext m t l j n : at_ (m ++ by_ t l) j n -> at_ m j n \/ (length m <= j /\ nth_error (m ++ by_ t l) j = Some (t, HNote n) /\ In (HNote n) l).
Proof.
  intros [u H]. destruct (Nat.lt_ge_cases j (length m)) as [L|L].
  - left. exists u. rewrite nth_error_app1 in H by exact L. exact H.
  - right. pose proof H as H0. rewrite nth_error_app2 in H by exact L. apply by_nth in H. destruct H as [-> H]. auto.
Qed.

Definition log_ok (b : nat) (sh : shared) (m : hlog) (t : nat) (l : list hact) : Prop :=
  (forall e, In (HNote (NStart e)) l -> deps_known m (kt (know m) t) e) /\
  (forall n, In (HNote n) l -> full b m (kt (know m) t)) /\
  (In (HNote NWrite) l -> exists e r, In (GFinish e r) (sh_tr sh) /\ (code r < 0)%Z) /\
  (forall st, In (HNote (NRet st)) l -> isErr st = false -> forall e, In e (els g) -> kfin m (kt (know m) t) e).

Lemma anc_known m P e d : closed m P -> deps_known m P e -> path g d e -> kfin m P d.
Proof.
  intros C D Hp.
  assert (G : forall a k, path g a k -> kfin m P k -> kfin m P a).
  { intros a k H. induction H as [a k [_ H]|a x k _ IH1 _ IH2]; intros K; [eapply C; eassumption|auto]. }
  induction Hp as [d e [_ H]|d k e H1 _ _ IH]; [apply D; exact H|]. eapply G; [exact H1|apply IH; exact D].
Qed.
Lemma core_log b sh B m t l sh' B' : Core b sh B m -> log_ok b sh m t l ->
  (forall ev, In ev (sh_tr sh) -> In ev (sh_tr sh')) ->
  all_closed (m ++ by_ t l) -> left_inv sh' B' (m ++ by_ t l) -> fin_inv sh' B' (m ++ by_ t l) -> sh_tr sh' = sh_tr sh ++ trace_of (by_ t l) ->
  Core b sh' B' (m ++ by_ t l).
Proof.
  intros C [Q1 [Q2 [Q3 Q4]]] Hev Hc Hl Hf Ht. destruct C as [Cb Cb0 Cc Cl Cf Ct Cs Cn Cbf Cw Cr].
  assert (K : forall P d, kfin m P d -> exists i r, In i P /\ at_ m i (NFinish d r)) by (intros P d H; exact H).
  constructor; auto.
  - rewrite app_length. lia.
  - rewrite trace_of_app, Ct. symmetry. exact Ht.
  - intros j e H d Hd. apply at_ext in H. destruct H as [H|[L [E H]]].
    + destruct (Cs j e H d Hd) as [i [r [H1 H2]]]. exists i, r. split; [apply at_app; exact H1|apply hb_app; exact H2].
    + destruct (anc_known m _ e d (proj1 Cc t) (Q1 e H) Hd) as [i [r [H1 H2]]]. exists i, r. split; [apply at_app; exact H2|]. eapply know_hb; eassumption.
  - intros j n i a H Hb Hi E. apply at_ext in H. rewrite nth_error_app1 in E by lia. destruct H as [H|[L [E2 H]]].
    + apply hb_app. eapply Cn; eassumption.
    + eapply know_hb; [eapply (Q2 n H); eassumption|exact L|exact E2].
  - intros j n u Hj E. rewrite nth_error_app1 in E by lia. eapply Cbf; eassumption.
  - intros j Hb H. apply at_ext in H. destruct H as [H|[L [E2 H]]].
    + destruct (Cw j Hb H) as [e [r [H1 H2]]]. exists e, r. auto.
    + destruct (Q3 H) as [e [r [H1 H2]]]. exists e, r. auto.
  - intros j st H Hst e He. apply at_ext in H. destruct H as [H|[L [E2 H]]].
    + destruct (Cr j st H Hst e He) as [i [r [H1 H2]]]. exists i, r. split; [apply at_app; exact H1|apply hb_app; exact H2].
    + destruct (Q4 st H Hst e He) as [i [r [H1 H2]]]. exists i, r. split; [apply at_app; exact H2|]. eapply know_hb; eassumption.
Qed.

Lemma left_keep sh o r sh' new enq nt B0 m ext : RI c sh (o :: B0) -> op_sem c sh o r = (sh', new, enq, nt) -> left_inv sh (o :: B0) m ->
  (forall e, In e (els g) -> cnt e (starts (sh_tr sh')) = 0 -> incl (kl (know m) (HLeft e)) (kl (know (m ++ ext)) (HLeft e)) /\ sh_left sh' e = sh_left sh e) ->
  left_inv sh' (new ++ map OExec enq ++ B0) (m ++ ext).
Proof.
  intros R Hs L Hk e He Hc. pose proof (RI_op c Hwf _ _ _ _ _ _ _ _ R Hs) as R'.
  destruct (Hk e He Hc) as [Hin Hleft]. rewrite Hleft.
  destruct (pend_new _ _ _ _ _ _ _ e e Hs) as [_ [_ [_ Hst]]].
  destruct (L e He) as [D [D1 [D2 [D3 D4]]]]; [lia|]. exists D. split; [exact D1|]. split; [exact D2|]. split; [|exact D4].
  intros d Hd. destruct (D3 d Hd) as [F1 [F2 F3]]. destruct (pend_new _ _ _ _ _ _ _ d e Hs) as [P1 [P2 _]].
  pose proof (finok_le1 c _ _ d R') as F4. split; [eapply kfin_mono; eassumption|]. split; [lia|].
  rewrite !sumf_app. simpl in F3.
  assert (Z : sumf (f_pend c d e) (map OExec enq) = 0) by (apply sumf_zero; intros x Hx; apply in_map_iff in Hx; destruct Hx as [y [<- _]]; reflexivity). lia.
Qed.

Lemma fin_keep sh o r sh' new enq nt B0 m ext : RI c sh (o :: B0) -> op_sem c sh o r = (sh', new, enq, nt) -> fin_inv sh (o :: B0) m ->
  sh_fin sh' = sh_fin sh -> (forall t, ~ In (t, HStore HFin) ext) ->
  fin_inv sh' (new ++ map OExec enq ++ B0) (m ++ ext).
Proof.
  intros R Hs [D [D1 [D2 [D3 D4]]]] Hf Hk. pose proof (RI_op c Hwf _ _ _ _ _ _ _ _ R Hs) as R'. exists D. split; [exact D1|]. split; [exact D2|]. split; [congruence|].
  intros d Hd. destruct (D4 d Hd) as [F1 [F2 F3]]. destruct (pend_new _ _ _ _ _ _ _ d d Hs) as [P1 [_ [P2 _]]].
  pose proof (finok_le1 c _ _ d R') as F4. split; [eapply kfin_mono; [apply know_l; exact Hk|exact F1]|]. split; [lia|].
  rewrite !sumf_app. simpl in F3.
  assert (Z : forall f : op -> nat, (forall y, f (OExec y) = 0) -> sumf f (map OExec enq) = 0) by (intros f Hz; apply sumf_zero; intros x Hx; apply in_map_iff in Hx; destruct Hx as [y [<- _]]; apply Hz).
  rewrite !Z by reflexivity. lia.
Qed.

(** *** Operations *)
Definition plain (a : hact) : Prop :=
  match a with HNote NRead | HNote NWrite => True | HNote _ => False | HStore (HLeft _) | HStore HFin => False | _ => True end.
Lemma plain_trace t l : (forall a, In a l -> plain a) -> trace_of (by_ t l) = [].
Proof.
  induction l as [|a l IH]; intros H; [reflexivity|]. unfold trace_of, by_ in *. cbn [map flat_map]. rewrite IH by (intros x Hx; apply H; right; exact Hx).
  pose proof (H a (or_introl eq_refl)) as Ha. unfold ev_of. cbn [snd]. destruct a as [[]| | | | | |]; simpl in Ha; try contradiction; reflexivity.
Qed.
Lemma plain_case b sh o r sh' new enq nt B0 m t l : RI c sh (o :: B0) -> op_sem c sh o r = (sh', new, enq, nt) -> Core b sh (o :: B0) m ->
  (forall a, In a l -> plain a) -> (forall n, In (HNote n) l -> full b m (kt (know m) t)) ->
  (In (HNote NWrite) l -> exists e r, In (GFinish e r) (sh_tr sh) /\ (code r < 0)%Z) ->
  sh_left sh' = sh_left sh -> sh_fin sh' = sh_fin sh -> sh_tr sh' = sh_tr sh ->
  Core b sh' (new ++ map OExec enq ++ B0) (m ++ by_ t l).
Proof.
  intros R Hs C Hp Hf Hw E1 E2 E3.
  assert (Hno : forall u a, In (u, a) (by_ t l) -> plain a) by (intros u a H; apply in_by in H; apply Hp; apply H).
  eapply core_log; [exact C| | | | | |].
  - split; [intros e H; destruct (Hp _ H)|]. split; [exact Hf|]. split; [exact Hw|]. intros st H. destruct (Hp _ H).
  - rewrite E3. auto.
  - apply closed_ext; [apply (co_closed _ _ _ _ C)|]. intros u e r0 H. exact (Hno _ _ H).
  - eapply left_keep; [exact R|exact Hs|apply (co_left _ _ _ _ C)|]. intros e He _. rewrite E1. split; [|reflexivity]. apply know_l. intros u H. exact (Hno _ _ H).
  - eapply fin_keep; [exact R|exact Hs|apply (co_fin _ _ _ _ C)|exact E2|]. intros u H. exact (Hno _ _ H).
  - rewrite E3, plain_trace, app_nil_r by exact Hp. reflexivity.
Qed.

Lemma kt_rmw m t l : incl (kl (know m) l) (kt (know (m ++ [(t, HRmw l)])) t) /\ kl (know (m ++ [(t, HRmw l)])) l = length m :: kl (know m) l ++ kt (know m) t /\
  kt (know (m ++ [(t, HRmw l)])) t = length m :: kl (know m) l ++ kt (know m) t.
Proof.
  rewrite know_snoc. unfold kstep. cbn [fst snd kt kl]. rewrite set_t_eq, set_l_eq. split; [|split; reflexivity]. intros i H. right. apply in_or_app. left. exact H.
Qed.
Lemma kl_store m t l : kl (know (m ++ [(t, HStore l)])) l = length m :: kt (know m) t.
Proof. rewrite know_snoc. unfold kstep. cbn [fst snd kt kl]. apply set_l_eq. Qed.
Lemma kt_load m t l : incl (kl (know m) l) (kt (know (m ++ [(t, HLoad l)])) t).
Proof. rewrite know_snoc. unfold kstep. cbn [fst snd kt kl]. rewrite set_t_eq. intros i H. right. apply in_or_app. left. exact H. Qed.

Definition step_ok (b : nat) (m m' : hlog) (t k : nat) (sh' : shared) (new : list op) (enq : list nat) (B0 : list op) : Prop :=
  Core b sh' (new ++ map OExec enq ++ B0) m' /\
  (forall o, In o new -> okop b m' (kt (know m') t) o) /\
  (forall e, In e enq -> full b m' (kl (know m') (HTask k)) /\ deps_known m' (kl (know m') (HTask k)) e) /\
  (forall k', k' <> k -> incl (kl (know m) (HTask k')) (kl (know m') (HTask k'))) /\ length enq <= 1.

Lemma op_core b sh o r sh' new enq nt B0 m t k : RI c sh (o :: B0) -> op_sem c sh o r = (sh', new, enq, nt) -> Core b sh (o :: B0) m ->
  okop b m (kt (know m) t) o -> step_ok b m (m ++ by_ t (op_mem o r k)) t k sh' new enq B0.
Proof.
  intros R Hs C Ho. pose proof (r_wfop c _ _ R o (or_introl eq_refl)) as Hw. pose proof (co_b _ _ _ _ C) as Hb.
  pose proof (RI_op c Hwf _ _ _ _ _ _ _ _ R Hs) as R'.
  assert (Fm : forall ext, full b m (kt (know m) t) -> full b (m ++ ext) (kt (know (m ++ ext)) t)) by (intros ext; apply full_mono; [exact Hb|apply know_t]).
  assert (Dm : forall ext x, deps_known m (kt (know m) t) x -> deps_known (m ++ ext) (kt (know (m ++ ext)) t) x) by (intros ext x; apply deps_mono; apply know_t).
  assert (Km : forall ext x, kfin m (kt (know m) t) x -> kfin (m ++ ext) (kt (know (m ++ ext)) t) x) by (intros ext x; apply kfin_mono; apply know_t).
  assert (Tk : forall l, (forall k', ~ In (HStore (HTask k')) l) -> forall k', k' <> k -> incl (kl (know m) (HTask k')) (kl (know (m ++ by_ t l)) (HTask k'))).
  { intros l H k' _. apply know_l. intros u Hin. apply in_by in Hin. apply (H k'). apply Hin. }
  pose proof (fun l => plain_case b sh o r sh' new enq nt B0 m t l R Hs C) as PC.
  destruct o as [e a|e|e|e|e r0| |e|e l res|e|]; cbn [op_mem okop wf_op] in *.
  - (* process *)
    assert (X : sh' = sh /\ enq = [] /\ (new = [] \/ new = [OExec e] \/ new = [OEnq e])).
    { cbn [op_sem] in Hs. destruct (isErr (sh_stat sh)); [|destruct (a && is_default c e)]; inversion Hs; subst; auto. }
    destruct X as [-> [-> Hn]]. destruct Ho as [Hf Hd]. split; [|split; [|split; [intros e0 []|split; [|simpl; lia]]]].
    + apply PC; auto; [intros x [<-|[]]; exact I|intros [H|[]]; discriminate H].
    + intros o Hin. destruct Hn as [->|[->| ->]]; [contradiction| |]; (destruct Hin as [<-|[]]); split; auto.
    + apply Tk. intros k' [H|[]]; discriminate H.
  - (* hand over to the pool *)
    cbn [op_sem] in Hs. inversion Hs; subst; clear Hs. destruct Ho as [Hf Hd]. split; [|split; [intros o []|split; [|split; [|simpl; lia]]]].
    + apply PC; auto; [intros x [<-|[]]; exact I|intros [H|[]]; discriminate H].
    + intros x [<-|[]]. cbn [by_ map]. rewrite kl_store. split; [eapply full_mono; [exact Hb| |exact Hf]|eapply deps_mono; [|exact Hd]]; intros i Hi; right; exact Hi.
    + intros k' Hk. apply know_l. intros u [H|[]]. injection H as _ H. congruence.
  - (* an element starts *)
    pose proof Hs as Hs0. cbn [op_sem] in Hs. inversion Hs; subst; clear Hs. destruct Ho as [Hf Hd]. split; [|split; [|split; [intros x []|split; [|simpl; lia]]]].
    + eapply core_log; [exact C| | | | | |].
      * split; [intros x [H|[H|[]]]; [discriminate H|]; injection H as <-; exact Hd|]. split; [intros; exact Hf|]. split; [intros [H|[H|[]]]; discriminate H|intros st [H|[H|[]]]; discriminate H].
      * intros ev H. cbn [sh_tr]. apply in_or_app. left. exact H.
      * apply closed_ext; [apply (co_closed _ _ _ _ C)|]. intros u x r0 [H|[H|[]]]; discriminate H.
      * eapply (left_keep sh (OExec e)); [exact R|exact Hs0|apply (co_left _ _ _ _ C)|]. intros x Hx Hc. cbn [sh_tr sh_left] in *. rewrite cnt_starts_st in Hc.
        assert (Hne : e <> x) by (intros ->; rewrite Nat.eqb_refl in Hc; simpl in Hc; lia).
        split; [|unfold upd; destruct (Nat.eqb_spec x e); congruence].
        apply know_l. intros u [H|[H|[]]]; [|discriminate H]. injection H as _ H. congruence.
      * eapply (fin_keep sh (OExec e)); [exact R|exact Hs0|apply (co_fin _ _ _ _ C)|reflexivity|]. intros u [H|[H|[]]]; discriminate H.
      * reflexivity.
    + intros o [<-|[]]. split; auto.
    + apply Tk. intros k' [H|[H|[]]]; discriminate H.
  - (* an element ends *)
    assert (X : sh' = mkSh (sh_left sh) (sh_fin sh) (sh_stat sh) (sh_tr sh ++ [GFinish e r]) /\ enq = [] /\ (new = [OErr e r; ONotify] \/ new = [OAfter e])).
    { cbn [op_sem] in Hs. destruct (isErr r); inversion Hs; subst; auto. }
    destruct X as [E [-> Hn]]. destruct Ho as [Hf Hd].
    assert (Kf : kfin (m ++ by_ t [HNote (NFinish e r)]) (kt (know (m ++ by_ t [HNote (NFinish e r)])) t) e).
    { exists (length m), r. split; [cbn [by_ map]; rewrite know_snoc; apply kstep_own|]. exists t. apply nth_snoc. }
    split; [|split; [|split; [intros x []|split; [|simpl; lia]]]].
    + eapply core_log; [exact C| | | | | |].
      * split; [intros x [H|[]]; discriminate H|]. split; [intros; exact Hf|]. split; [intros [H|[]]; discriminate H|intros st [H|[]]; discriminate H].
      * intros ev H. rewrite E. cbn [sh_tr]. apply in_or_app. left. exact H.
      * apply closed_step; [apply (co_closed _ _ _ _ C)|]. cbn [fst snd]. intros x r0 H. injection H as <- _. exact Hd.
      * eapply (left_keep sh (OBody e)); [exact R|exact Hs|apply (co_left _ _ _ _ C)|]. intros x Hx Hc. rewrite E. split; [|reflexivity].
        apply know_l. intros u [H|[]]; discriminate H.
      * eapply (fin_keep sh (OBody e)); [exact R|exact Hs|apply (co_fin _ _ _ _ C)|rewrite E; reflexivity|]. intros u [H|[]]; discriminate H.
      * rewrite E. reflexivity.
    + intros o Hin. destruct Hn as [->| ->].
      * destruct Hin as [<-|[<-|[]]]; [cbn [okop]; auto|exact I].
      * destruct Hin as [<-|[]]. split; auto.
    + apply Tk. intros k' [H|[]]; discriminate H.
  - (* an error *)
    cbn [op_sem] in Hs. inversion Hs; subst; clear Hs. split; [|split; [intros o []|split; [intros x []|split; [|simpl; lia]]]].
    + apply PC; auto; [|intros _; exists e, r0; split; apply Hw]. intros x [<-|[<-|[<-|[<-|[]]]]]; exact I.
    + apply Tk. intros k' [H|[H|[H|[H|[]]]]]; discriminate H.
  - cbn [op_sem] in Hs. inversion Hs; subst; clear Hs. split; [|split; [intros o []|split; [intros x []|split; [|simpl; lia]]]].
    + apply PC; auto; [intros x []|intros n []|intros []].
    + apply Tk. intros k' [].
  - (* after an element *)
    destruct Ho as [Hf Hk].
    assert (X : sh' = sh /\ enq = [] /\ (forall o, In o new -> okop b (m ++ by_ t [HNote NRead]) (kt (know (m ++ by_ t [HNote NRead])) t) o)).
    { cbn [op_sem] in Hs. destruct (isErr (sh_stat sh)) eqn:Ee; [inversion Hs; subst; split; [|split]; auto; intros o []|].
      pose proof (calc_shape_spec c Hwf e Hw) as Hsp. destruct (calc_shape g (c_bind c) e); inversion Hs; subst; (split; [reflexivity|split; [reflexivity|]]); intros o Hin.
      - destruct Hin as [<-|[]]. cbn [okop]. split; [intros _; split; auto|intros x Hx; discriminate Hx].
      - destruct Hsp as [x [Ex [Ed _]]]. rewrite Ex in Hin. destruct Hin as [<-|[]]. split; [auto|]. intros d Hd. rewrite Ed in Hd. destruct Hd as [<-|[]]. auto.
      - destruct Hsp as [_ Hsp]. apply in_map_iff in Hin. destruct Hin as [x [<- Hx]]. split; [auto|]. intros d Hd. rewrite (Hsp x Hx) in Hd. destruct Hd as [<-|[]]. auto.
      - destruct Hin as [<-|[]]. split; auto. }
    destruct X as [-> [-> Hn]]. split; [|split; [exact Hn|split; [intros x []|split; [|simpl; lia]]]].
    + apply PC; auto; [intros x [<-|[]]; exact I|intros [H|[]]; discriminate H].
    + apply Tk. intros k' [H|[]]; discriminate H.
  - (* the counters of the elements that wait *)
    destruct l as [|x l].
    + assert (X : sh' = sh /\ enq = [] /\ (new = [] \/ exists y, res = Some y /\ new = [OProc y true])).
      { cbn [op_sem] in Hs. destruct res as [y|]; inversion Hs; subst; split; [|split| |split]; eauto. }
      destruct X as [-> [-> Hn]]. cbn [by_ map] in *. split; [|split; [|split; [intros y []|split; [|simpl; lia]]]].
      * apply (PC []); auto; [intros y []|intros n []|intros []].
      * intros o Hin. destruct Hn as [->|[y [Ey ->]]]; [contradiction|]. destruct Hin as [<-|[]]. destruct (proj2 Ho y Ey) as [H1 H2]. split; auto.
      * apply (Tk []). intros k' [].
    + destruct Ho as [Ho1 Ho2]. destruct Ho1 as [Hf Hk]; [discriminate|]. destruct Hw as [He [Hil [Hnd [Hne Hres]]]].
      assert (Hx : In x (succ g e)) by (apply Hil; left; reflexivity). destruct (succ_in_els c Hwf e x He Hx) as [Hxe Hd].
      assert (P1 : f_pend c e x (ODecs e (x :: l) res) = 1) by (cbn [f_pend]; simpl; rewrite !Nat.eqb_refl; reflexivity).
      assert (Hrel0 : rel (sh_tr sh) (ODecs e (x :: l) res :: B0) x = 0).
      { eapply (pend_not_rel c sh _ e x R Hxe Hd). cbn [sumf]. lia. }
      assert (Hst0 : cnt x (starts (sh_tr sh)) = 0) by (unfold rel in Hrel0; lia).
      assert (X : sh' = mkSh (upd (sh_left sh) x (sh_left sh x - 1)%Z) (sh_fin sh) (sh_stat sh) (sh_tr sh) /\ enq = [] /\
                  (forall o, In o new -> (exists res', o = ODecs e l res' /\ (res' = res \/ res' = Some x /\ (sh_left sh x - 1)%Z = 0%Z)) \/ (o = OProc x false /\ (sh_left sh x - 1)%Z = 0%Z))).
      { cbn [op_sem] in Hs. destruct (sh_left sh x - 1 =? 0)%Z eqn:Ev; [apply Z.eqb_eq in Ev; destruct res as [y|]|]; inversion Hs; subst; (split; [reflexivity|split; [reflexivity|]]); intros o Hin.
        - destruct Hin as [<-|[<-|[]]]; [right; auto|left; exists (Some y); auto].
        - destruct Hin as [<-|[]]. left. exists (Some x). auto.
        - destruct Hin as [<-|[]]. left. exists res. auto. }
      destruct X as [E [-> Hn]]. cbn [by_ map] in *.
      set (m' := m ++ [(t, HRmw (HLeft x))]) in *.
      destruct (kt_rmw m t (HLeft x)) as [W1 [W2 W3]]. fold m' in W1, W2, W3.
      assert (HD : exists D, NoDup D /\ incl D (dep g x) /\
               (forall d, In d D -> kfin m' (kl (know m') (HLeft x)) d /\ finok (sh_tr sh') d = 1 /\ sumf (f_pend c d x) (new ++ B0) = 0) /\
               (Z.of_nat (length (dep g x)) <= sh_left sh' x + Z.of_nat (length D))%Z).
      { destruct (co_left _ _ _ _ C x Hxe Hst0) as [D [D1 [D2 [D3 D4]]]].
        assert (HnD : ~ In e D). { intros Hin. destruct (D3 e Hin) as [_ [_ F]]. cbn [sumf] in F. lia. }
        exists (e :: D). split; [constructor; assumption|]. split; [intros y [<-|Hy]; auto|]. split.
        - intros d Hin. destruct (pend_new _ _ _ _ _ _ _ d x Hs) as [Q1 [Q2 _]]. pose proof (finok_le1 c _ _ d R') as F4. destruct Hin as [<-|Hin].
          + split; [rewrite W2; eapply kfin_mono; [|exact Hk]; intros i Hi; right; apply in_or_app; right; exact Hi|].
            pose proof (r_post c _ _ R e) as Hpost. pose proof (pend_le_post c e x (ODecs e (x :: l) res :: B0)) as Hpl. cbn [sumf] in Hpl. rewrite P1 in Hpl.
            cbn [sumf f_aft f_dec f_tail] in Hpost, Hpl. rewrite Nat.eqb_refl in Hpost, Hpl. cbn [b2n] in Hpost, Hpl.
            split; [lia|]. rewrite sumf_app.
            assert (Z1 : sumf (f_pend c e x) new = 0).
            { apply sumf_zero. intros o Ho'. destruct (Hn o Ho') as [[res' [-> _]]|[-> _]]; [|reflexivity]. cbn [f_pend]. rewrite Nat.eqb_refl. inversion Hnd as [|? ? Hni _]; subst.
              destruct (memb x l) eqn:Em; [apply memb_in in Em; contradiction|reflexivity]. }
            pose proof (finok_le1 c _ _ e R). lia.
          + destruct (D3 d Hin) as [F1 [F2 F3]]. split; [rewrite W2; eapply kfin_mono; [|exact F1]; intros i Hi; right; apply in_or_app; left; exact Hi|]. split; [lia|].
            rewrite sumf_app. cbn [sumf] in F3. lia.
        - rewrite E. cbn [sh_left length]. unfold upd. rewrite Nat.eqb_refl. lia. }
      assert (Hdeps : (sh_left sh x - 1)%Z = 0%Z -> deps_known m' (kt (know m') t) x).
      { intros Hz d Hin. destruct HD as [D [D1 [D2 [D3 D4]]]]. rewrite E in D4. cbn [sh_left] in D4. unfold upd in D4. rewrite Nat.eqb_refl, Hz in D4.
        assert (Hinc : incl (dep g x) D) by (apply NoDup_length_incl; [exact D1|lia|exact D2]).
        destruct (D3 d (Hinc d Hin)) as [F _]. rewrite W2 in F. rewrite W3. exact F. }
      split; [|split; [|split; [intros y []|split; [|simpl; lia]]]].
      * eapply (core_log b sh _ m t [HRmw (HLeft x)]); [exact C| | | | | |].
        -- split; [intros y [H|[]]; discriminate H|]. split; [intros n [H|[]]; discriminate H|]. split; [intros [H|[]]; discriminate H|intros st [H|[]]; discriminate H].
        -- rewrite E. auto.
        -- apply closed_ext; [apply (co_closed _ _ _ _ C)|]. intros u y r0 [H|[]]; discriminate H.
        -- intros y Hy Hc. change (map OExec []) with (@nil op). cbn [app]. destruct (Nat.eq_dec y x) as [->|Hyx]; [exact HD|].
           destruct (co_left _ _ _ _ C y Hy) as [D [D1 [D2 [D3 D4]]]]; [rewrite E in Hc; exact Hc|].
           exists D. split; [exact D1|]. split; [exact D2|]. split; [|rewrite E; cbn [sh_left]; unfold upd; destruct (Nat.eqb_spec y x); [contradiction|exact D4]].
           intros d Hin. destruct (D3 d Hin) as [F1 [F2 F3]]. destruct (pend_new _ _ _ _ _ _ _ d y Hs) as [Q1 [Q2 _]]. pose proof (finok_le1 c _ _ d R') as F4.
           split; [eapply kfin_mono; [apply know_l; intros u [H|[]]; discriminate H|exact F1]|]. split; [lia|]. rewrite sumf_app. cbn [sumf] in F3. lia.
        -- eapply (fin_keep sh (ODecs e (x :: l) res)); [exact R|exact Hs|apply (co_fin _ _ _ _ C)|rewrite E; reflexivity|]. intros u [H|[]]; discriminate H.
        -- rewrite E. symmetry. apply app_nil_r.
      * intros o Hin. destruct (Hn o Hin) as [[res' [-> Hr]]|[-> Hz]].
        -- cbn [okop]. split; [intros _; split; [apply Fm; exact Hf|apply Km; exact Hk]|]. intros y Hy. destruct Hr as [Hr|[Hr Hz]].
           ++ rewrite Hr in Hy. destruct (Ho2 y Hy) as [H1 H2]. split; [apply Fm; exact H1|apply Dm; exact H2].
           ++ rewrite Hr in Hy. injection Hy as <-. split; [apply Fm; exact Hf|auto].
        -- split; [apply Fm; exact Hf|auto].
      * apply (Tk [HRmw (HLeft x)]). intros k' [H|[]]; discriminate H.
  - (* an end *)
    assert (X : sh' = mkSh (sh_left sh) (S (sh_fin sh)) (sh_stat sh) (sh_tr sh) /\ enq = [] /\ (forall o, In o new -> o = OLockNotify)).
    { cbn [op_sem] in Hs. destruct (Nat.eqb (S (sh_fin sh)) (total_end c)); injection Hs as <- <- <- <-; (split; [reflexivity|split; [reflexivity|]]); intros o Hin; [destruct Hin as [<-|[]]; reflexivity|destruct Hin]. }
    destruct X as [E [-> Hn]]. destruct Ho as [Hf Hk]. cbn [by_ map] in *. destruct (kt_rmw m t HFin) as [W1 [W2 W3]].
    split; [|split; [|split; [intros y []|split; [|simpl; lia]]]].
    + eapply (core_log b sh _ m t [HRmw HFin]); [exact C| | | | | |].
      * split; [intros y [H|[]]; discriminate H|]. split; [intros n [H|[]]; discriminate H|]. split; [intros [H|[]]; discriminate H|intros st [H|[]]; discriminate H].
      * rewrite E. auto.
      * apply closed_ext; [apply (co_closed _ _ _ _ C)|]. intros u y r0 [H|[]]; discriminate H.
      * eapply (left_keep sh (OTail e)); [exact R|exact Hs|apply (co_left _ _ _ _ C)|]. intros y Hy Hc. rewrite E. split; [|reflexivity]. apply know_l. intros u [H|[]]; discriminate H.
      * destruct (co_fin _ _ _ _ C) as [D [D1 [D2 [D3 D4]]]].
        assert (HnD : ~ In e D). { intros Hin. destruct (D4 e Hin) as [_ [_ F]]. cbn [sumf f_tail] in F. rewrite Nat.eqb_refl in F. simpl in F. lia. }
        exists (e :: D). split; [constructor; assumption|]. split; [intros y [<-|Hy]; auto|]. split; [rewrite E; simpl; lia|].
        intros d Hin. destruct (pend_new _ _ _ _ _ _ _ d d Hs) as [Q1 [_ [Q2 _]]]. pose proof (finok_le1 c _ _ d R') as F4. change (map OExec []) with (@nil op). cbn [app]. destruct Hin as [<-|Hin].
        -- split; [cbn [by_ map]; rewrite W2; eapply kfin_mono; [|exact Hk]; intros i Hi; right; apply in_or_app; right; exact Hi|].
           pose proof (r_post c _ _ R e) as Hpost. cbn [sumf f_aft f_dec f_tail] in Hpost. rewrite Nat.eqb_refl in Hpost. cbn [b2n] in Hpost.
           split; [lia|]. rewrite !sumf_app. pose proof (finok_le1 c _ _ e R).
           assert (Z1 : forall f : op -> nat, f OLockNotify = 0 -> sumf f new = 0) by (intros f Hz; apply sumf_zero; intros o Ho'; rewrite (Hn o Ho'); exact Hz).
           rewrite !Z1 by reflexivity. lia.
        -- destruct (D4 d Hin) as [F1 [F2 F3]]. split; [cbn [by_ map]; rewrite W2; eapply kfin_mono; [|exact F1]; intros i Hi; right; apply in_or_app; left; exact Hi|]. split; [lia|].
           rewrite !sumf_app. cbn [sumf] in F3. lia.
      * rewrite E. symmetry. apply app_nil_r.
    + intros o Hin. rewrite (Hn o Hin). exact I.
    + apply (Tk [HRmw HFin]). intros k' [H|[]]; discriminate H.
  - cbn [op_sem] in Hs. inversion Hs; subst; clear Hs. split; [|split; [intros o []|split; [intros x []|split; [|simpl; lia]]]].
    + apply PC; auto; [intros x [<-|[<-|[]]]; exact I|intros n [H|[H|[]]]; discriminate H|intros [H|[H|[]]]; discriminate H].
    + apply Tk. intros k' [H|[H|[]]]; discriminate H.
Qed.

(** *** Steps that are not operations *)
Lemma core_perm b sh B B' m : Permutation B B' -> Core b sh B m -> Core b sh B' m.
Proof.
  intros P C. assert (S : forall f, sumf f B' = sumf f B) by (intros f; apply sumf_perm; symmetry; exact P). destruct C. constructor; auto.
  - intros e He Hc. destruct (co_left0 e He Hc) as [D [D1 [D2 [D3 D4]]]]. exists D. split; [exact D1|]. split; [exact D2|]. split; [|exact D4]. intros d Hd. rewrite S. apply D3. exact Hd.
  - destruct co_fin0 as [D [D1 [D2 [D3 D4]]]]. exists D. split; [exact D1|]. split; [exact D2|]. split; [exact D3|]. intros d Hd. rewrite !S. apply D4. exact Hd.
Qed.
Definition silent (a : hact) : Prop :=
  match a with HNote (NStart _) | HNote (NFinish _ _) => False | HStore (HLeft _) | HStore HFin => False | _ => True end.
Lemma core_ext b sh B m t l : Core b sh B m -> log_ok b sh m t l -> (forall a, In a l -> silent a) -> Core b sh B (m ++ by_ t l).
Proof.
  intros C L Hs.
  assert (Hno : forall u a, In (u, a) (by_ t l) -> silent a) by (intros u a H; apply in_by in H; apply Hs; apply H).
  eapply core_log; [exact C|exact L|auto| | | |].
  - apply closed_ext; [apply (co_closed _ _ _ _ C)|]. intros u e r0 H. exact (Hno _ _ H).
  - intros e He Hc. destruct (co_left _ _ _ _ C e He Hc) as [D [D1 [D2 [D3 D4]]]]. exists D. split; [exact D1|]. split; [exact D2|]. split; [|exact D4]. intros d Hd. destruct (D3 d Hd) as [F1 F2].
    split; [|exact F2]. eapply kfin_mono; [|exact F1]. apply know_l. intros u H. exact (Hno _ _ H).
  - destruct (co_fin _ _ _ _ C) as [D [D1 [D2 [D3 D4]]]]. exists D. split; [exact D1|]. split; [exact D2|]. split; [exact D3|]. intros d Hd. destruct (D4 d Hd) as [F1 F2].
    split; [|exact F2]. eapply kfin_mono; [|exact F1]. apply know_l. intros u H. exact (Hno _ _ H).
  - assert (E : trace_of (by_ t l) = []).
    { clear - Hs. induction l as [|a l IH]; [reflexivity|]. unfold trace_of, by_ in *. cbn [map flat_map]. rewrite IH by (intros x Hx; apply Hs; right; exact Hx).
      pose proof (Hs a (or_introl eq_refl)) as Ha. unfold ev_of. cbn [snd]. destruct a as [[]| | | | | |]; simpl in Ha; try contradiction; reflexivity. }
    rewrite E. symmetry. apply app_nil_r.
Qed.

Lemma full0 b m : full b m (kt (know m) 0).
Proof. intros i a _ E. eapply know_own. exact E. Qed.

(** Knowing that all ends have finished is knowing that everything has. *)
Definition kfinb (m : hlog) (P : list nat) (e : nat) : bool :=
  existsb (fun i => match nth_error m i with Some (_, HNote (NFinish x _)) => Nat.eqb x e | _ => false end) P.
Lemma kfinb_iff m P e : kfinb m P e = true <-> kfin m P e.
Proof.
  unfold kfinb. rewrite existsb_exists. split.
  - intros [i [Hi H]]. destruct (nth_error m i) as [[t [[]| | | | | |]]|] eqn:E; try discriminate. apply Nat.eqb_eq in H. subst e0. exists i, r. split; [exact Hi|]. exists t. exact E.
  - intros [i [r [Hi [t E]]]]. exists i. split; [exact Hi|]. rewrite E. apply Nat.eqb_refl.
Qed.
Lemma ends_known m P : closed m P -> (forall x, In x (ends g) -> kfin m P x) -> forall e, In e (els g) -> kfin m P e.
Proof.
  intros C He e Hin. destruct (kfinb m P e) eqn:Ek; [apply kfinb_iff; exact Ek|exfalso].
  set (L := filter (fun x => negb (kfinb m P x)) (els g)).
  destruct (no_minimal_cycle (fun y x => In x (els g) /\ In y (els g) /\ In y (succ g x)) L e) as [z [_ Hc]].
  - unfold L. apply filter_In. split; [exact Hin|]. rewrite Ek. reflexivity.
  - intros x Hx. unfold L in Hx. apply filter_In in Hx. destruct Hx as [Hx Hx0].
    destruct (succ g x) as [|y l] eqn:Es.
    + assert (kfin m P x) by (apply He; apply ends_in; auto). apply kfinb_iff in H. rewrite H in Hx0. discriminate.
    + assert (Hy : In y (succ g x)) by (rewrite Es; left; reflexivity).
      destruct (succ_in_els c Hwf x y Hx Hy) as [Hye Hd].
      exists y. split; [|rewrite <- Es; auto]. unfold L. apply filter_In. split; [exact Hye|].
      destruct (kfinb m P y) eqn:Ky; [|reflexivity]. apply kfinb_iff in Ky. pose proof (C x y Hd Ky) as Kx. apply kfinb_iff in Kx. rewrite Kx in Hx0. discriminate.
  - apply (Hac z). clear - Hc Hwf.
    assert (Hsub : forall a b, clos_trans nat (fun y x => In x (els g) /\ In y (els g) /\ In y (succ g x)) a b -> path g b a).
    { intros a b Hab. induction Hab as [a b [H1 [H2 H3]]|a m b _ IH1 _ IH2].
      - apply t_step. split; [assumption|]. apply (wf_sym g Hwf); assumption.
      - eapply t_trans; eassumption. }
    apply Hsub; exact Hc.
Qed.
Lemma fin_known b sh B m t ext : Core b sh B m -> total_end c <= sh_fin sh -> incl (kl (know m) HFin) (kt (know (m ++ ext)) t) ->
  all_closed (m ++ ext) -> forall e, In e (els g) -> kfin (m ++ ext) (kt (know (m ++ ext)) t) e.
Proof.
  intros C Hf Hi Hc. apply ends_known; [apply Hc|]. intros x Hx. destruct (co_fin _ _ _ _ C) as [D [D1 [D2 [D3 D4]]]].
  assert (Hinc : incl (ends g) D) by (apply NoDup_length_incl; [exact D1|unfold total_end in Hf; lia|exact D2]).
  destruct (D4 x (Hinc x Hx)) as [F _]. eapply kfin_mono; [exact Hi|exact F].
Qed.

(** ** States *)
Definition Pre (m : hlog) : Prop :=
  forall j t n, nth_error m j = Some (t, HNote n) -> t = 0 /\ (n = NCall \/ n = NRead \/ n = NWrite).
Definition Run (b : nat) (h : hst) : Prop :=
  let s := h_s h in let m := h_log h in
  Core b (d_sh s) (all_ops s) m /\
  (forall o, In o (main_ops (d_main s)) -> okop b m (kt (know m) 0) o) /\
  Forall2 (fun t p => forall o, In o p -> okop b m (kt (know m) t) o) (h_thr h) (d_act s) /\
  Forall2 (fun k e => full b m (kl (know m) (HTask k)) /\ deps_known m (kl (know m) (HTask k)) e) (h_tasks h) (d_pool s) /\
  (d_main s = MRet -> isErr (sh_stat (d_sh s)) = true \/ forall e, In e (els g) -> kfin m (kt (know m) 0) e).
Definition before (s : dst) : Prop := d_main s = MPrep \/ d_main s = MStore \/ (d_main s = MIdle /\ d_out s = None).
Record HI (h : hst) : Prop := {
  hi_inv : Inv c (h_s h);
  hi_thr : length (h_thr h) = length (d_act (h_s h));
  hi_tasks : length (h_tasks h) = length (d_pool (h_s h));
  hi_lt : forall k, In k (h_tasks h) -> k < h_next h;
  hi_phase : (before (h_s h) /\ Pre (h_log h)) \/ (~ before (h_s h) /\ exists b, Run b h)
}.

Lemma before_harmless s : Inv c s -> before s -> harmless c (all_ops s) /\ sh_tr (d_sh s) = [].
Proof.
  intros I B. pose proof (v_phase c s I) as P. destruct B as [E|[E|[E E2]]]; rewrite E in P; [tauto|tauto|]. rewrite E2 in P. tauto.
Qed.
Lemma run_RI s : Inv c s -> ~ before s -> RI c (d_sh s) (all_ops s).
Proof.
  intros I B. pose proof (v_phase c s I) as P. unfold before in B. destruct (d_main s); try exact P; try (exfalso; apply B; auto; fail).
  destruct (d_out s) eqn:E; [tauto|]. exfalso. apply B. auto.
Qed.

(** Lists that go together *)
Lemma Forall2_remove {A B} (R : A -> B -> Prop) : forall i l1 l2, Forall2 R l1 l2 -> Forall2 R (remove_nth i l1) (remove_nth i l2).
Proof. induction i as [|i IH]; intros l1 l2 H; destruct H; simpl; auto. Qed.
Lemma Forall2_replace {A B} (R : A -> B -> Prop) : forall i l1 l2 a x, Forall2 R l1 l2 -> nth_error l1 i = Some a -> R a x -> Forall2 R l1 (replace_nth i x l2).
Proof.
  induction i as [|i IH]; intros l1 l2 a x H E Rx; destruct H; simpl in *; try discriminate.
  - injection E as <-. constructor; assumption.
  - constructor; [assumption|]. eapply IH; eassumption.
Qed.
Lemma Forall2_nth {A B} (R : A -> B -> Prop) : forall i l1 l2 a x, Forall2 R l1 l2 -> nth_error l1 i = Some a -> nth_error l2 i = Some x -> R a x.
Proof.
  induction i as [|i IH]; intros l1 l2 a x H E E2; destruct H; simpl in *; try discriminate.
  - injection E as <-. injection E2 as <-. assumption.
  - eapply IH; eassumption.
Qed.
Lemma Forall2_in {A B} (R R' : A -> B -> Prop) l1 l2 : Forall2 R l1 l2 -> (forall a x, In a l1 -> R a x -> R' a x) -> Forall2 R' l1 l2.
Proof. induction 1; intros F; constructor; [apply F; [left; reflexivity|assumption]|]. apply IHForall2. intros a z Ha. apply F. right. exact Ha. Qed.
Lemma nth_same {A B} (l1 : list A) (l2 : list B) i x : length l1 = length l2 -> nth_error l2 i = Some x -> exists a, nth_error l1 i = Some a.
Proof. intros E H. destruct (nth_error l1 i) as [a|] eqn:E1; [eauto|]. apply nth_error_None in E1. apply nth_lt in H. lia. Qed.
Lemma length_remove {A} : forall i (l : list A) x, nth_error l i = Some x -> S (length (remove_nth i l)) = length l.
Proof. induction i as [|i IH]; intros [|y l] x H; simpl in *; try discriminate; [reflexivity|]. rewrite (IH l x H). reflexivity. Qed.
Lemma length_replace {A} : forall i (l : list A) x, length (replace_nth i x l) = length l.
Proof. induction i as [|i IH]; intros [|y l] x; simpl in *; auto. Qed.

(** ** Every step can be logged, and keeps the invariant *)
Lemma pre_ext m t l : Pre m -> (forall a, In a l -> forall n, a = HNote n -> t = 0 /\ (n = NCall \/ n = NRead \/ n = NWrite)) -> Pre (m ++ by_ t l).
Proof.
  intros P H j u n E. destruct (Nat.lt_ge_cases j (length m)) as [L|L].
  - rewrite nth_error_app1 in E by exact L. eapply P; exact E.
  - rewrite nth_error_app2 in E by exact L. apply by_nth in E. destruct E as [-> E]. eapply H; [exact E|reflexivity].
Qed.
Lemma harmless_mem o r k n : harmless_op c o -> ~ In (HNote n) (op_mem o r k).
Proof. intros [->|[->|[e [-> _]]]]; cbn [op_mem]; [intros []|intros [H|[H|[]]]; discriminate H|intros []]. Qed.

Lemma fresh_len k (old enq : list nat) : fresh_tasks k old (old ++ enq) = seq k (length enq).
Proof. unfold fresh_tasks. rewrite app_length. f_equal. lia. Qed.
Lemma enq_le1 sh o r sh' new enq nt : op_sem c sh o r = (sh', new, enq, nt) -> length enq <= 1.
Proof.
  intros H. destruct o as [e a|e|e|e|e r0| |e|e l res|e|]; cbn [op_sem] in H.
  all: repeat match type of H with
       | context [if ?b then _ else _] => destruct b
       | context [match calc_shape ?a ?b ?x with _ => _ end] => destruct (calc_shape a b x)
       | context [match ?l with [] => _ | _ :: _ => _ end] => destruct l
       | context [match ?x with Some _ => _ | None => _ end] => destruct x
       end; inversion H; subst; simpl; lia.
Qed.

(** One operation of thread [t]: all the other threads and tasks keep what they know. *)
Lemma others b m m' t k sh' new enq B0 (thr : list nat) (act : list (list op)) (tasks pool : list nat) ext : m' = m ++ ext -> b <= length m ->
  step_ok b m m' t k sh' new enq B0 -> (forall k', In k' tasks -> k' < k) ->
  Forall2 (fun t p => forall o, In o p -> okop b m (kt (know m) t) o) thr act ->
  Forall2 (fun k e => full b m (kl (know m) (HTask k)) /\ deps_known m (kl (know m) (HTask k)) e) tasks pool ->
  Forall2 (fun t p => forall o, In o p -> okop b m' (kt (know m') t) o) thr act /\
  Forall2 (fun k e => full b m' (kl (know m') (HTask k)) /\ deps_known m' (kl (know m') (HTask k)) e) (tasks ++ seq k (length enq)) (pool ++ enq).
Proof.
  intros -> Hb [S1 [S2 [S3 [S4 S5]]]] Hlt F1 F2. split.
  - eapply Forall2_in; [exact F1|]. intros u p _ H o Ho. eapply okop_mono; [exact Hb|apply know_t|apply H; exact Ho].
  - apply Forall2_app.
    + eapply Forall2_in; [exact F2|]. intros q e Hq [H1 H2]. assert (Hne : q <> k) by (specialize (Hlt q Hq); lia).
      split; [eapply full_mono; [exact Hb|apply S4; exact Hne|exact H1]|eapply deps_mono; [apply S4; exact Hne|exact H2]].
    + destruct enq as [|e [|]]; simpl in S5; [constructor| |lia]. simpl. constructor; [|constructor]. apply S3. left. reflexivity.
Qed.

Lemma work_perm s i o rest new enq : nth_error (d_act s) i = Some (o :: rest) ->
  exists B0, Permutation (all_ops s) (o :: B0) /\
    (forall sh' nt out, Permutation (all_ops (mkD sh' (d_pool s ++ enq) (match new ++ rest with [] => remove_nth i (d_act s) | _ => replace_nth i (new ++ rest) (d_act s) end) (wake nt (d_main s)) out)) (new ++ map OExec enq ++ B0)).
Proof.
  intros En. exists (main_ops (d_main s) ++ rest ++ concat (remove_nth i (d_act s)) ++ map OExec (d_pool s)). split.
  - unfold all_ops. rewrite (concat_perm _ _ (nth_error_remove _ _ _ En)). simpl. rewrite <- app_assoc. symmetry. apply Permutation_middle.
  - intros sh' nt out. unfold all_ops. simpl. rewrite main_ops_wake, (concat_put i (d_act s) _ (new ++ rest) En), map_app. apply perm_cnt.
Qed.

Lemma before_wake s nt sh pool act : before (mkD sh pool act (wake nt (d_main s)) (d_out s)) <-> before s.
Proof. unfold before. cbn [d_main d_out]. destruct (d_main s); simpl; try tauto. destruct nt; simpl; intuition discriminate. Qed.

Lemma main_quiet b s m tasks thr next l main' out' : Run b (mkH s m tasks thr next) -> main_ops (d_main s) = [] -> main_ops main' = [] ->
  log_ok b (d_sh s) m 0 l -> (forall a, In a l -> silent a /\ forall k, a <> HStore (HTask k)) ->
  (main' = MRet -> isErr (sh_stat (d_sh s)) = true \/ forall e, In e (els g) -> kfin (m ++ by_ 0 l) (kt (know (m ++ by_ 0 l)) 0) e) ->
  Run b (mkH (mkD (d_sh s) (d_pool s) (d_act s) main' out') (m ++ by_ 0 l) tasks thr next).
Proof.
  intros [C [M [F1 [F2 W]]]] E1 E2 L Hs Hr. unfold Run, all_ops in *. cbn [h_s h_log h_tasks h_thr d_main d_sh d_act d_pool] in *. rewrite E1 in C. rewrite E2. pose proof (co_b _ _ _ _ C) as Hbm.
  assert (KL : forall k, incl (kl (know m) (HTask k)) (kl (know (m ++ by_ 0 l)) (HTask k))).
  { intros k. apply know_l. intros u Hin. apply in_by in Hin. destruct Hin as [_ Hin]. destruct (Hs _ Hin) as [_ X]. apply (X k). reflexivity. }
  split; [apply core_ext; [exact C|exact L|intros a Ha; apply Hs; exact Ha]|]. split; [intros o []|]. split; [|split; [|exact Hr]].
  - eapply Forall2_in; [exact F1|]. intros u p _ Hp o Ho. eapply okop_mono; [exact Hbm|apply know_t|apply Hp; exact Ho].
  - eapply Forall2_in; [exact F2|]. intros q x _ [H1 H2]. split; [eapply full_mono; [exact Hbm|apply KL|exact H1]|eapply deps_mono; [apply KL|exact H2]].
Qed.
Lemma log_ok_read b sh m l : (forall a, In a l -> match a with HNote NRead => True | HNote _ => False | _ => True end) -> log_ok b sh m 0 l.
Proof.
  intros H. split; [intros e X; destruct (H _ X)|]. split; [intros n _; apply full0|]. split; [intros X; destruct (H _ X)|intros st X; destruct (H _ X)].
Qed.

Lemma HI_step h lb s' : HI h -> (lb = LRun -> may_call (h_s h)) -> dstep c (h_s h) lb = Some s' ->
  exists h', hstep c h lb = Some h' /\ h_s h' = s' /\ HI h'.
Proof.
  intros H Hcall Hd. pose proof (Inv_step c Hwf Hac _ _ _ (hi_inv h H) Hcall Hd) as I'. destruct H as [HInv Hthr Htasks Hlt Hph].
  destruct h as [s m tasks thr next]. cbn [h_s h_log h_tasks h_thr h_next] in *.
  destruct lb as [|r|i r|i|].
  - (* run is called *)
    exists (mkH s' [(0, HNote NCall)] tasks thr next). split; [unfold hstep; cbn [h_s]; rewrite Hd; reflexivity|]. split; [reflexivity|].
    cbn [dstep] in Hd. destruct (d_main s) eqn:E; try discriminate. injection Hd as <-.
    constructor; cbn [h_s h_log h_tasks h_thr h_next d_act d_pool]; auto. left. split; [left; reflexivity|].
    intros j t n Hn. destruct j as [|[|j]]; try discriminate Hn. injection Hn as <- <-. auto.
  - (* the caller *)
    assert (Keep : forall l main' out', s' = mkD (d_sh s) (d_pool s) (d_act s) main' out' -> hstep c (mkH s m tasks thr next) (LMain r) = Some (mkH s' (m ++ by_ 0 l) tasks thr next) ->
              main_ops (d_main s) = [] -> main_ops main' = [] -> ~ before s -> ~ before s' ->
              (forall b, Core b (d_sh s) (all_ops s) m -> log_ok b (d_sh s) m 0 l) -> (forall a, In a l -> silent a /\ forall k, a <> HStore (HTask k)) ->
              (main' = MRet -> isErr (sh_stat (d_sh s)) = true \/ forall b, Core b (d_sh s) (all_ops s) m -> forall e, In e (els g) -> kfin (m ++ by_ 0 l) (kt (know (m ++ by_ 0 l)) 0) e) ->
              exists h', hstep c (mkH s m tasks thr next) (LMain r) = Some h' /\ h_s h' = s' /\ HI h').
    { intros l main' out' -> Hh Em Em' Hb Hb' HL HS HW. exists (mkH (mkD (d_sh s) (d_pool s) (d_act s) main' out') (m ++ by_ 0 l) tasks thr next). split; [exact Hh|]. split; [reflexivity|].
      constructor; cbn [h_s h_log h_tasks h_thr h_next d_act d_pool]; auto. right. split; [exact Hb'|].
      destruct Hph as [[X _]|[_ [b HR]]]; [contradiction|]. exists b. pose proof HR as HR0. destruct HR0 as [C _]. cbn [h_s h_log] in C. apply main_quiet; auto.
      intros X. destruct (HW X) as [Y|Y]; [left; exact Y|right; apply (Y b); exact C]. }
    assert (Hfk : forall ext, incl (kl (know m) HFin) (kt (know (m ++ by_ 0 ext)) 0) -> (forall a, In a ext -> silent a) -> total_end c <= sh_fin (d_sh s) ->
              forall b, Core b (d_sh s) (all_ops s) m -> forall e, In e (els g) -> kfin (m ++ by_ 0 ext) (kt (know (m ++ by_ 0 ext)) 0) e).
    { intros ext Hi Hs Ht b C. eapply fin_known; [exact C|exact Ht|exact Hi|]. apply closed_ext; [apply (co_closed _ _ _ _ C)|]. intros u x r0 Hin. apply in_by in Hin. exact (Hs _ (proj2 Hin)). }
    destruct (d_main s) as [| | |[|o rest]|[|n]| | | | | |] eqn:E.
    + cbn [dstep] in Hd. rewrite E in Hd. discriminate.
    + (* prepareRun *)
      eexists. split; [unfold hstep; cbn [h_s h_log h_tasks h_thr h_next]; rewrite Hd, E; reflexivity|]. split; [reflexivity|].
      cbn [dstep] in Hd. rewrite E in Hd. injection Hd as <-. constructor; cbn [h_s h_log h_tasks h_thr h_next d_act d_pool]; auto.
      left. split; [right; left; reflexivity|]. destruct Hph as [[_ Hp]|[X _]]; [|exfalso; apply X; left; exact E].
      apply pre_ext; [exact Hp|]. intros a Ha n0 ->. split; [reflexivity|]. unfold main_mem in Ha. rewrite E in Ha.
      destruct (isOK (sh_stat (d_sh s))); [destruct Ha as [Ha|[]]; injection Ha as <-; auto|].
      destruct Ha as [Ha|Ha]; [injection Ha as <-; auto|]. apply in_app_or in Ha. destruct Ha as [Ha|[Ha|[]]]; [|injection Ha as <-; auto].
      apply in_map_iff in Ha. destruct Ha as [x [X _]]. discriminate X.
    + (* the elements are about to be handed out *)
      eexists. split; [unfold hstep; cbn [h_s h_log h_tasks h_thr h_next]; rewrite Hd, E; reflexivity|]. split; [reflexivity|].
      assert (Hbs : before s) by (right; left; exact E).
      destruct (before_harmless s HInv Hbs) as [Hh Htr]. pose proof (v_phase c s HInv) as Hv. rewrite E in Hv. destruct Hv as [_ [_ Hready]].
      cbn [dstep] in Hd. rewrite E in Hd. injection Hd as <-. constructor; cbn [h_s h_log h_tasks h_thr h_next d_act d_pool]; auto.
      destruct Hph as [[_ Hp]|[X _]]; [|exfalso; apply X; exact Hbs].
      right. split; [unfold before; simpl; intuition discriminate|]. unfold main_mem. rewrite E. set (m' := m ++ by_ 0 [HStore HFin]) in *.
      assert (Hp' : Pre m') by (apply pre_ext; [exact Hp|]; intros a [<-|[]] n0 X; discriminate X).
      assert (Hnf : forall P x, ~ kfin m' P x). { intros P x [i [r0 [_ [t Ht]]]]. destruct (Hp' _ _ _ Ht) as [_ [X|[X|X]]]; discriminate X. }
      exists (length m').
      assert (Hpool : d_pool s = []).
      { destruct (d_pool s) as [|e l] eqn:Ep; [reflexivity|]. exfalso. assert (Hin : In (OExec e) (all_ops s)).
        { unfold all_ops. apply in_or_app. right. apply in_or_app. right. rewrite Ep. left. reflexivity. }
        destruct (Hh _ Hin) as [X|[X|[x [X _]]]]; discriminate X. }
      split; [|split; [|split; [|split]]]; cbn [h_s h_log h_tasks h_thr d_main d_sh d_act d_pool main_ops].
      * constructor; cbn [sh_tr].
        -- lia.
        -- unfold m'. rewrite app_length. simpl. lia.
        -- split; intros x y z _ Hk; exfalso; eapply Hnf; exact Hk.
        -- intros e He _. exists []. split; [constructor|]. split; [intros x []|]. split; [intros d []|]. cbn [sh_left length]. destruct Hready as [_ Hl]. rewrite (Hl e He). unfold left0. lia.
        -- exists []. split; [constructor|]. split; [intros x []|]. split; [reflexivity|intros d []].
        -- rewrite Htr. clear - Hp'. revert Hp'. generalize m' as q. intros q Hq. unfold trace_of. induction q as [|[t a] q IH]; [reflexivity|]. cbn [flat_map].
           rewrite IH; [|intros j u n0 X; apply (Hq (S j) u n0); exact X]. rewrite app_nil_r. unfold ev_of. cbn [snd].
           destruct a as [n0| | | | | |]; try reflexivity. destruct (Hq 0 t n0 eq_refl) as [_ [->|[->| ->]]]; reflexivity.
        -- intros j e [t Ht]. destruct (Hp' _ _ _ Ht) as [_ [X|[X|X]]]; discriminate X.
        -- intros j n0 i a [t Ht] Hj. apply nth_lt in Ht. lia.
        -- intros j n0 t Hj Ht. eapply Hp'. exact Ht.
        -- intros j Hj [t Ht]. apply nth_lt in Ht. lia.
        -- intros j st [t Ht]. destruct (Hp' _ _ _ Ht) as [_ [X|[X|X]]]; discriminate X.
      * intros o Ho. unfold front_ops in Ho. apply in_map_iff in Ho. destruct Ho as [x [<- Hx]]. split; [apply full0|]. apply fronts_in in Hx. destruct Hx as [_ Hx]. intros d Hdd. rewrite Hx in Hdd. destruct Hdd.
      * assert (G : forall p, In p (d_act s) -> forall o, In o p -> harmless_op c o).
        { intros p Hpp o Ho. apply Hh. unfold all_ops. apply in_or_app. right. apply in_or_app. left. apply in_concat. exists p. auto. }
        clear - G Hthr. revert thr Hthr. induction (d_act s) as [|p l IH]; intros thr Hthr; destruct thr as [|t thr]; try discriminate Hthr; constructor.
        -- intros o Ho. destruct (G p (or_introl eq_refl) o Ho) as [->|[->|[x [-> _]]]]; cbn [okop]; auto. split; [intros X; destruct (X eq_refl)|intros y X; discriminate X].
        -- apply IH; [intros q Hq; apply G; right; exact Hq|]. injection Hthr as X. exact X.
      * rewrite Hpool in *. destruct tasks; [constructor|discriminate Htasks].
      * intros X. discriminate X.
    + (* the loop over the elements is done *)
      apply (Keep [] (MPoll (c_epoch c)) (d_out s)); auto; try (unfold before; rewrite ?E; simpl; intuition discriminate); try (intros X; discriminate X).
      * cbn [dstep] in Hd. rewrite E in Hd. injection Hd as <-. reflexivity.
      * unfold hstep. cbn [h_s h_log h_tasks h_thr h_next]. rewrite Hd, E. unfold main_mem. rewrite E. reflexivity.
      * cbn [dstep] in Hd. rewrite E in Hd. injection Hd as <-. unfold before; simpl; intuition discriminate.
      * intros b _. apply log_ok_read. intros a [].
    + (* an operation of the caller *)
      pose proof Hd as Hd0. cbn [dstep] in Hd. rewrite E in Hd. destruct (op_sem c (d_sh s) o r) as [[[sh' new] enq] nt] eqn:Es. injection Hd as <-.
      eexists. split; [unfold hstep; cbn [h_s h_log h_tasks h_thr h_next]; rewrite Hd0, E; reflexivity|]. split; [reflexivity|]. cbn [d_pool]. rewrite fresh_len.
      assert (Hb : ~ before s) by (unfold before; rewrite E; intuition discriminate).
      constructor; cbn [h_s h_log h_tasks h_thr h_next d_act d_pool]; auto.
      * rewrite !app_length, seq_length. lia.
      * intros k Hk. rewrite seq_length. apply in_app_or in Hk. destruct Hk as [Hk|Hk]; [specialize (Hlt k Hk); lia|]. apply in_seq in Hk. lia.
      * right. split; [unfold before; simpl; intuition discriminate|]. destruct Hph as [[X _]|[_ [b HR]]]; [contradiction|]. exists b.
        destruct HR as [C [M [F1 [F2 W]]]]. cbn [h_s h_log h_tasks h_thr] in *.
        set (B0 := rest ++ concat (d_act s) ++ map OExec (d_pool s)).
        assert (P1 : all_ops s = o :: B0) by (unfold all_ops; rewrite E; reflexivity).
        assert (P2 : Permutation (all_ops (mkD sh' (d_pool s ++ enq) (d_act s) (MRun (new ++ rest)) (d_out s))) (new ++ map OExec enq ++ B0)).
        { unfold all_ops, B0. simpl. rewrite map_app, <- !app_assoc. apply Permutation_app_head. apply perm_cnt2. }
        pose proof (run_RI s HInv Hb) as R. rewrite P1 in R, C. rewrite E in M. cbn [main_ops] in M.
        pose proof (op_core b (d_sh s) o r sh' new enq nt B0 m 0 next R Es C (M o (or_introl eq_refl))) as S.
        pose proof (co_b _ _ _ _ C) as Hbm.
        destruct (others b m _ 0 next sh' new enq B0 thr (d_act s) tasks (d_pool s) _ eq_refl Hbm S Hlt F1 F2) as [G1 G2].
        destruct S as [S1 [S2 _]].
        split; [cbn [h_s h_log d_sh]; eapply core_perm; [symmetry; apply P2|exact S1]|]. cbn [h_s h_log h_tasks h_thr d_main d_sh d_act d_pool main_ops].
        split; [|split; [exact G1|split; [exact G2|intros X; discriminate X]]].
        intros o' Hin. apply in_app_or in Hin. destruct Hin as [Hin|Hin]; [apply S2; exact Hin|]. eapply okop_mono; [exact Hbm|apply know_t|apply M; right; exact Hin].
    + apply (Keep [] MLock (d_out s)); auto; try (unfold before; rewrite ?E; simpl; intuition discriminate); try (intros X; discriminate X).
      * cbn [dstep] in Hd. rewrite E in Hd. injection Hd as <-. reflexivity.
      * unfold hstep. cbn [h_s h_log h_tasks h_thr h_next]. rewrite Hd, E. unfold main_mem. rewrite E. reflexivity.
      * cbn [dstep] in Hd. rewrite E in Hd. injection Hd as <-. unfold before; simpl; intuition discriminate.
      * intros b _. apply log_ok_read. intros a [].
    + (* busy waiting *)
      apply (Keep [HLoad HFin] (if Nat.leb (total_end c) (sh_fin (d_sh s)) then MRet else MPoll n) (d_out s)); auto; try (unfold before; rewrite ?E; simpl; intuition discriminate); try (intros X; discriminate X).
      * cbn [dstep] in Hd. rewrite E in Hd. injection Hd as <-. reflexivity.
      * unfold hstep. cbn [h_s h_log h_tasks h_thr h_next]. rewrite Hd, E. unfold main_mem. rewrite E. reflexivity.
      * destruct (Nat.leb _ _); reflexivity.
      * cbn [dstep] in Hd. rewrite E in Hd. injection Hd as <-. unfold before; simpl. destruct (Nat.leb _ _); intuition discriminate.
      * intros b _. apply log_ok_read. intros a [<-|[]]. exact I.
      * intros a [<-|[]]. split; [exact I|discriminate].
      * destruct (Nat.leb (total_end c) (sh_fin (d_sh s))) eqn:El; intros X; [|discriminate X]. right. apply Hfk; [apply kt_load|intros a [<-|[]]; exact I|apply Nat.leb_le; exact El].
    + apply (Keep [HLock HMtx] MEvalFin (d_out s)); auto; try (unfold before; rewrite ?E; simpl; intuition discriminate); try (intros X; discriminate X).
      * cbn [dstep] in Hd. rewrite E in Hd. injection Hd as <-. reflexivity.
      * unfold hstep. cbn [h_s h_log h_tasks h_thr h_next]. rewrite Hd, E. unfold main_mem. rewrite E. reflexivity.
      * cbn [dstep] in Hd. rewrite E in Hd. injection Hd as <-. unfold before; simpl; intuition discriminate.
      * intros b _. apply log_ok_read. intros a [<-|[]]. exact I.
      * intros a [<-|[]]. split; [exact I|discriminate].
    + (* the first part of what the caller waits for *)
      apply (Keep (if Nat.leb (total_end c) (sh_fin (d_sh s)) then [HLoad HFin; HUnlock HMtx] else [HLoad HFin]) (if Nat.leb (total_end c) (sh_fin (d_sh s)) then MRet else MEvalErr) (d_out s)); auto; try (unfold before; rewrite ?E; simpl; intuition discriminate); try (intros X; discriminate X).
      * cbn [dstep] in Hd. rewrite E in Hd. injection Hd as <-. reflexivity.
      * unfold hstep. cbn [h_s h_log h_tasks h_thr h_next]. rewrite Hd, E. unfold main_mem. rewrite E. reflexivity.
      * destruct (Nat.leb _ _); reflexivity.
      * cbn [dstep] in Hd. rewrite E in Hd. injection Hd as <-. unfold before; simpl. destruct (Nat.leb _ _); intuition discriminate.
      * intros b _. apply log_ok_read. destruct (Nat.leb _ _); [intros a [<-|[<-|[]]]; exact I|intros a [<-|[]]; exact I].
      * destruct (Nat.leb _ _); [intros a [<-|[<-|[]]]; (split; [exact I|discriminate])|intros a [<-|[]]; (split; [exact I|discriminate])].
      * destruct (Nat.leb (total_end c) (sh_fin (d_sh s))) eqn:El; intros X; [|discriminate X]. right.
        apply Hfk; [|intros a [<-|[<-|[]]]; exact I|apply Nat.leb_le; exact El].
        change (by_ 0 [HLoad HFin; HUnlock HMtx]) with ([(0, HLoad HFin)] ++ [(0, HUnlock HMtx)]). rewrite app_assoc. intros i Hi. apply know_t. apply kt_load. exact Hi.
    + apply (Keep (if isErr (sh_stat (d_sh s)) then [HNote NRead; HUnlock HMtx] else [HNote NRead]) (if isErr (sh_stat (d_sh s)) then MRet else MPreSleep) (d_out s)); auto; try (unfold before; rewrite ?E; simpl; intuition discriminate); try (intros X; discriminate X).
      * cbn [dstep] in Hd. rewrite E in Hd. injection Hd as <-. reflexivity.
      * unfold hstep. cbn [h_s h_log h_tasks h_thr h_next]. rewrite Hd, E. unfold main_mem. rewrite E. reflexivity.
      * destruct (isErr _); reflexivity.
      * cbn [dstep] in Hd. rewrite E in Hd. injection Hd as <-. unfold before; simpl. destruct (isErr _); intuition discriminate.
      * intros b _. apply log_ok_read. destruct (isErr _); [intros a [<-|[<-|[]]]; exact I|intros a [<-|[]]; exact I].
      * destruct (isErr _); [intros a [<-|[<-|[]]]; (split; [exact I|discriminate])|intros a [<-|[]]; (split; [exact I|discriminate])].
      * destruct (isErr (sh_stat (d_sh s))) eqn:El; intros X; [left; reflexivity|discriminate X].
    + apply (Keep [HUnlock HMtx] MAsleep (d_out s)); auto; try (unfold before; rewrite ?E; simpl; intuition discriminate); try (intros X; discriminate X).
      * cbn [dstep] in Hd. rewrite E in Hd. injection Hd as <-. reflexivity.
      * unfold hstep. cbn [h_s h_log h_tasks h_thr h_next]. rewrite Hd, E. unfold main_mem. rewrite E. reflexivity.
      * cbn [dstep] in Hd. rewrite E in Hd. injection Hd as <-. unfold before; simpl; intuition discriminate.
      * intros b _. apply log_ok_read. intros a [<-|[]]. exact I.
      * intros a [<-|[]]. split; [exact I|discriminate].
    + cbn [dstep] in Hd. rewrite E in Hd. discriminate.
    + (* run returns *)
      destruct Hph as [[X _]|[Hb [b0 HR]]]; [exfalso; unfold before in X; rewrite E in X; intuition discriminate|].
      destruct HR as [C [M [F1 [F2 W]]]]. cbn [h_s h_log h_tasks h_thr] in *. specialize (W E).
      apply (Keep [HNote NRead; HNote (NRet (sh_stat (d_sh s)))] MIdle (Some (sh_stat (d_sh s)))); auto; try (unfold before; rewrite ?E; simpl; intuition discriminate); try (intros X; discriminate X).
      * cbn [dstep] in Hd. rewrite E in Hd. injection Hd as <-. reflexivity.
      * unfold hstep. cbn [h_s h_log h_tasks h_thr h_next]. rewrite Hd, E. unfold main_mem. rewrite E. reflexivity.
      * cbn [dstep] in Hd. rewrite E in Hd. injection Hd as <-. unfold before; simpl; intuition discriminate.
      * intros b _. split; [intros e [X|[X|[]]]; discriminate X|]. split; [intros n _; apply full0|]. split; [intros [X|[X|[]]]; discriminate X|].
        intros st [X|[X|[]]]; [discriminate X|]. injection X as <-. intros Y. destruct W as [W|W]; [congruence|exact W].
      * intros a [<-|[<-|[]]]; (split; [exact I|discriminate]).
  - (* a worker *)
    pose proof Hd as Hd0. cbn [dstep] in Hd. destruct (nth_error (d_act s) i) as [[|o rest]|] eqn:En; try discriminate.
    destruct (op_enabled (d_main s) o) eqn:Ee; [|discriminate]. destruct (op_sem c (d_sh s) o r) as [[[sh' new] enq] nt] eqn:Es. injection Hd as <-.
    destruct (nth_same thr (d_act s) i _ Hthr En) as [t Et].
    eexists. split; [unfold hstep; cbn [h_s h_log h_tasks h_thr h_next]; rewrite Hd0, Et, En; reflexivity|]. split; [reflexivity|].
    cbn [d_pool d_act]. rewrite fresh_len.
    destruct (work_perm s i o rest new enq En) as [B0 [P1 P2]].
    assert (Hlen : Nat.ltb (length (match new ++ rest with [] => remove_nth i (d_act s) | _ :: _ => replace_nth i (new ++ rest) (d_act s) end)) (length (d_act s)) = match new ++ rest with [] => true | _ => false end).
    { destruct (new ++ rest); [apply Nat.ltb_lt; pose proof (length_remove i _ _ En); lia|apply Nat.ltb_ge; rewrite length_replace; lia]. }
    rewrite Hlen. constructor; cbn [h_s h_log h_tasks h_thr h_next d_act d_pool].
    + exact I'.
    + destruct (new ++ rest); [|rewrite length_replace; exact Hthr]. pose proof (length_remove i _ _ En). pose proof (length_remove i _ _ Et). lia.
    + rewrite !app_length, seq_length. lia.
    + intros k Hk. rewrite seq_length. apply in_app_or in Hk. destruct Hk as [Hk|Hk]; [specialize (Hlt k Hk); lia|]. apply in_seq in Hk. lia.
    + destruct Hph as [[Hb Hp]|[Hb [b HR]]].
      * left. split; [apply before_wake; exact Hb|]. apply pre_ext; [exact Hp|]. intros a Ha n ->. exfalso.
        destruct (before_harmless s HInv Hb) as [Hh _]. eapply harmless_mem; [|exact Ha]. apply Hh. eapply Permutation_in; [symmetry; exact P1|left; reflexivity].
      * right. split; [intros X; apply before_wake in X; exact (Hb X)|]. exists b.
        destruct HR as [C [M [F1 [F2 W]]]]. cbn [h_s h_log h_tasks h_thr] in *.
        pose proof (run_RI s HInv Hb) as R. apply (RI_perm c _ _ _ P1) in R. apply (core_perm _ _ _ _ _ P1) in C.
        assert (Ho : forall o', In o' (o :: rest) -> okop b m (kt (know m) t) o') by (exact (Forall2_nth _ _ _ _ _ _ F1 Et En)).
        pose proof (op_core b (d_sh s) o r sh' new enq nt B0 m t next R Es C (Ho o (or_introl eq_refl))) as S.
        pose proof (co_b _ _ _ _ C) as Hbm.
        destruct (others b m _ t next sh' new enq B0 thr (d_act s) tasks (d_pool s) _ eq_refl Hbm S Hlt F1 F2) as [G1 G2].
        destruct S as [S1 [S2 _]].
        assert (Hmain : forall o', In o' (main_ops (wake nt (d_main s))) -> okop b (m ++ by_ t (op_mem o r next)) (kt (know (m ++ by_ t (op_mem o r next))) 0) o').
        { rewrite main_ops_wake. intros o' Ho'. eapply okop_mono; [exact Hbm|apply know_t|apply M; exact Ho']. }
        split; [cbn [h_s h_log d_sh]; eapply core_perm; [symmetry; apply P2|exact S1]|]. cbn [h_s h_log h_tasks h_thr d_main d_sh d_act d_pool].
        split; [exact Hmain|]. split; [|split; [exact G2|]].
        -- assert (Hp : forall o', In o' (new ++ rest) -> okop b (m ++ by_ t (op_mem o r next)) (kt (know (m ++ by_ t (op_mem o r next))) t) o').
           { intros o' Hin. apply in_app_or in Hin. destruct Hin as [Hin|Hin]; [apply S2; exact Hin|]. eapply okop_mono; [exact Hbm|apply know_t|apply Ho; right; exact Hin]. }
           destruct (new ++ rest) as [|o1 p1]; [apply Forall2_remove; exact G1|]. eapply Forall2_replace; [exact G1|exact Et|exact Hp].
        -- intros Em. assert (Em0 : d_main s = MRet) by (destruct (d_main s); simpl in Em; try discriminate Em; auto; destruct nt; discriminate Em).
           destruct (op_facts _ _ _ _ _ _ _ _ Es) as [_ [Fst _]]. destruct (W Em0) as [We|We]; [left; rewrite (Fst We); exact We|right].
           intros e He. eapply kfin_mono; [apply know_t|apply We; exact He].
  - (* a task is taken *)
    pose proof Hd as Hd0. pose proof (pick_step c s i s' Hd) as [E1 [E2 [E3 [P _]]]].
    cbn [dstep] in Hd. destruct (Nat.ltb (length (d_act s)) (c_workers c)) eqn:El; [|discriminate]. destruct (nth_error (d_pool s) i) as [e|] eqn:En; [|discriminate]. injection Hd as <-.
    destruct (nth_same tasks (d_pool s) i _ Htasks En) as [k Et].
    eexists. split; [unfold hstep; cbn [h_s h_log h_tasks h_thr h_next]; rewrite Hd0, Et; reflexivity|]. split; [reflexivity|].
    constructor; cbn [h_s h_log h_tasks h_thr h_next d_act d_pool].
    + exact I'.
    + rewrite !app_length. simpl. lia.
    + pose proof (length_remove i _ _ En). pose proof (length_remove i _ _ Et). lia.
    + intros q Hq. apply Hlt. eapply in_remove_nth. exact Hq.
    + destruct Hph as [[Hb Hp]|[Hb [b HR]]].
      * exfalso. destruct (before_harmless s HInv Hb) as [Hh _]. assert (Hin : In (OExec e) (all_ops s)).
        { unfold all_ops. apply in_or_app. right. apply in_or_app. right. apply in_map. eapply nth_error_In. exact En. }
        destruct (Hh _ Hin) as [X|[X|[x [X _]]]]; discriminate X.
      * right. split; [intros X; apply Hb; exact X|]. exists b. destruct HR as [C [M [F1 [F2 W]]]]. cbn [h_s h_log h_tasks h_thr] in *. pose proof (co_b _ _ _ _ C) as Hbm.
        change [(k, HLoad (HTask k))] with (by_ k [HLoad (HTask k)]).
        set (m' := m ++ by_ k [HLoad (HTask k)]) in *.
        assert (KL : forall l, incl (kl (know m) l) (kl (know m') l)) by (intros l; apply know_l; intros u [X|[]]; discriminate X).
        assert (KT : forall t, incl (kt (know m) t) (kt (know m') t)) by (intros t; apply know_t).
        split; [|split; [|split; [|split]]]; cbn [h_s h_log h_tasks h_thr d_main d_sh d_act d_pool].
        -- eapply core_perm; [symmetry; exact P|]. apply core_ext; [exact C| |intros a [<-|[]]; exact I].
           split; [intros x [X|[]]; discriminate X|]. split; [intros x [X|[]]; discriminate X|]. split; [intros [X|[]]; discriminate X|intros st [X|[]]; discriminate X].
        -- intros o Ho. eapply okop_mono; [exact Hbm|apply KT|apply M; exact Ho].
        -- apply Forall2_app.
           ++ eapply Forall2_in; [exact F1|]. intros u p _ Hp o Ho. eapply okop_mono; [exact Hbm|apply KT|apply Hp; exact Ho].
           ++ constructor; [|constructor]. intros o [<-|[]]. destruct (Forall2_nth _ _ _ _ _ _ F2 Et En) as [H1 H2]. pose proof (kt_load m k (HTask k)) as KL2.
              split; [eapply full_mono; [exact Hbm|exact KL2|exact H1]|eapply deps_mono; [exact KL2|exact H2]].
        -- apply Forall2_remove. eapply Forall2_in; [exact F2|]. intros q x _ [H1 H2]. split; [eapply full_mono; [exact Hbm|apply KL|exact H1]|eapply deps_mono; [apply KL|exact H2]].
        -- intros Em. destruct (W Em) as [We|We]; [left; exact We|right]. intros x Hx. eapply kfin_mono; [apply KT|apply We; exact Hx].
  - (* a spurious wake up *)
    pose proof Hd as Hd0. cbn [dstep] in Hd. destruct (d_main s) eqn:E; try discriminate. injection Hd as <-.
    eexists. split; [unfold hstep; cbn [h_s h_log h_tasks h_thr h_next]; rewrite Hd0; reflexivity|]. split; [reflexivity|].
    constructor; cbn [h_s h_log h_tasks h_thr h_next d_act d_pool]; auto.
    destruct Hph as [[Hb Hp]|[Hb [b HR]]]; [exfalso; unfold before in Hb; rewrite E in Hb; intuition discriminate|].
    right. split; [unfold before; simpl; intuition discriminate|]. exists b. destruct HR as [C [M [F1 [F2 W]]]]. unfold Run, all_ops in *. cbn [h_s h_log h_tasks h_thr d_main d_sh d_act d_pool] in *. rewrite E in C.
    split; [exact C|]. split; [intros o []|]. split; [exact F1|]. split; [exact F2|]. intros X. discriminate X.
Qed.

Lemma HI_init : HI (h_init c).
Proof.
  constructor; cbn [h_init h_s h_log h_tasks h_thr h_next]; auto.
  - apply Inv_init.
  - intros k [].
  - left. split; [right; right; split; reflexivity|]. intros j t n H. destruct j; discriminate H.
Qed.

Lemma hrun_HI : forall ls h s', HI h -> disciplined c (h_s h) ls -> drun c (h_s h) ls = Some s' -> exists h', hrun c h ls = Some h' /\ h_s h' = s' /\ HI h'.
Proof.
  induction ls as [|l ls IH]; intros h s' H D Hr; cbn [drun] in Hr.
  - injection Hr as <-. exists h. split; [reflexivity|]. auto.
  - cbn [disciplined] in D. destruct D as [D1 D2]. destruct (dstep c (h_s h) l) as [s1|] eqn:E; [|discriminate].
    destruct (HI_step h l s1 H D1 E) as [h1 [E1 [E2 H1]]]. cbn [hrun]. rewrite E1. apply IH; [exact H1|rewrite E2; exact D2|rewrite E2; exact Hr].
Qed.

(** ** What the log says *)
Lemma hstep_dstep h l h' : hstep c h l = Some h' -> dstep c (h_s h) l = Some (h_s h').
Proof.
  unfold hstep. destruct (dstep c (h_s h) l) as [s'|]; [|discriminate]. intros H. f_equal. destruct l as [|r|i r|i|].
  - injection H as <-. reflexivity.
  - destruct (d_main (h_s h)) as [| | |[|o rest]| | | | | | |]; injection H as <-; reflexivity.
  - destruct (nth_error (h_thr h) i); [|discriminate]. destruct (nth_error (d_act (h_s h)) i) as [[|o rest]|]; try discriminate. injection H as <-. reflexivity.
  - destruct (nth_error (h_tasks h) i); [|discriminate]. injection H as <-. reflexivity.
  - injection H as <-. reflexivity.
Qed.
Lemma hrun_drun : forall ls h h', hrun c h ls = Some h' -> drun c (h_s h) ls = Some (h_s h').
Proof.
  induction ls as [|l ls IH]; intros h h' H; cbn [hrun] in H; [injection H as <-; reflexivity|].
  destruct (hstep c h l) as [h1|] eqn:E; [|discriminate]. cbn [drun]. rewrite (hstep_dstep _ _ _ E). apply IH. exact H.
Qed.
Definition called (m : hlog) : Prop := m = [] \/ exists r, m = (0, HNote NCall) :: r /\ forall t, ~ In (t, HNote NCall) r.
Lemma called_ext m t l : called m -> m <> [] \/ l = [] -> ~ In (HNote NCall) l -> called (m ++ by_ t l).
Proof.
  intros [->|[r [-> Hr]]] Hne Hl.
  - destruct Hne as [X| ->]; [congruence|left; reflexivity].
  - right. exists (r ++ by_ t l). split; [reflexivity|]. intros u Hin. apply in_app_or in Hin. destruct Hin as [Hin|Hin]; [exact (Hr u Hin)|]. apply in_by in Hin. exact (Hl (proj2 Hin)).
Qed.
Lemma op_mem_call o r k : ~ In (HNote NCall) (op_mem o r k).
Proof. destruct o as [e a|e|e|e|e r0| |e|e [|x l] res|e|]; cbn [op_mem]; intros H; repeat destruct H as [H|H]; try discriminate H; destruct H. Qed.
Lemma main_mem_call s : ~ In (HNote NCall) (main_mem c s).
Proof.
  unfold main_mem. destruct (d_main s) as [| | | |[|n]| | | | | |]; intros H; try (repeat destruct H as [H|H]; try discriminate H; destruct H; fail).
  - destruct (isOK _); [repeat destruct H as [H|H]; try discriminate H; destruct H|]. destruct H as [H|H]; [discriminate H|]. apply in_app_or in H. destruct H as [H|[H|[]]]; [|discriminate H].
    apply in_map_iff in H. destruct H as [x [X _]]. discriminate X.
  - destruct (Nat.leb _ _); repeat destruct H as [H|H]; try discriminate H; destruct H.
  - destruct (isErr _); repeat destruct H as [H|H]; try discriminate H; destruct H.
Qed.
(** Before the first call nothing is logged. *)
Definition quiet0 (h : hst) : Prop := h_log h = [] -> d_main (h_s h) = MIdle /\ d_act (h_s h) = [] /\ d_pool (h_s h) = [].
Lemma called_step h l h' : called (h_log h) -> quiet0 h -> hstep c h l = Some h' -> called (h_log h') /\ quiet0 h'.
Proof.
  intros C Q H. pose proof (hstep_dstep _ _ _ H) as Hd. unfold hstep in H. rewrite Hd in H.
  assert (App : forall m t x, h_log h <> [] -> m = h_log h ++ by_ t x -> ~ In (HNote NCall) x -> called m /\ (m = [] -> False)).
  { intros m t x Hne -> Hx. split; [apply called_ext; auto|]. intros X. apply app_eq_nil in X. apply Hne. apply X. }
  destruct l as [|r|i r|i|].
  - injection H as <-. cbn [h_log]. split; [right; exists []; split; [reflexivity|intros t []]|]. intros X. discriminate X.
  - assert (Hne : h_log h <> []). { intros X. destruct (Q X) as [E _]. cbn [dstep] in Hd. rewrite E in Hd. discriminate. }
    destruct (d_main (h_s h)) as [| | |[|o rest]| | | | | | |] eqn:E; injection H as <-; cbn [h_log];
      first [destruct (App _ 0 _ Hne eq_refl (op_mem_call o r (h_next h))) as [A1 A2]|destruct (App _ 0 _ Hne eq_refl (main_mem_call (h_s h))) as [A1 A2]];
      (split; [exact A1|]); intros X; cbn [h_log] in X; destruct (A2 X).
  - destruct (nth_error (h_thr h) i) as [t|]; [|discriminate]. destruct (nth_error (d_act (h_s h)) i) as [[|o rest]|] eqn:En; try discriminate. injection H as <-. cbn [h_log].
    assert (Hne : h_log h <> []). { intros X. destruct (Q X) as [_ [E _]]. rewrite E in En. destruct i; discriminate En. }
    destruct (App _ t _ Hne eq_refl (op_mem_call o r (h_next h))) as [A1 A2]. split; [exact A1|]. intros X. cbn [h_log] in X. destruct (A2 X).
  - destruct (nth_error (h_tasks h) i) as [k|] eqn:Et; [|discriminate]. injection H as <-. cbn [h_log].
    assert (Hne : h_log h <> []). { intros X. destruct (Q X) as [_ [_ E]]. cbn [dstep] in Hd. rewrite E in Hd. destruct (Nat.ltb _ _); [|discriminate]. destruct i; discriminate Hd. }
    destruct (App (h_log h ++ by_ k [HLoad (HTask k)]) k [HLoad (HTask k)] Hne eq_refl) as [A1 A2]; [intros [X|[]]; discriminate X|]. split; [exact A1|]. intros X. cbn [h_log] in X. destruct (A2 X).
  - injection H as <-. cbn [h_log]. split; [exact C|]. intros X. cbn [h_log] in X. destruct (Q X) as [E _]. cbn [dstep] in Hd. rewrite E in Hd. discriminate.
Qed.
Lemma hrun_called : forall ls h h', called (h_log h) -> quiet0 h -> hrun c h ls = Some h' -> called (h_log h').
Proof.
  induction ls as [|l ls IH]; intros h h' C Q H; cbn [hrun] in H; [injection H as <-; exact C|].
  destruct (hstep c h l) as [h1|] eqn:E; [|discriminate]. destruct (called_step h l h1 C Q E) as [C1 Q1]. eapply IH; eassumption.
Qed.

(** An element ends at one place of the log. *)
Lemma finish_unique m e i j r r' : NoDup (map fst (finishes (trace_of m))) -> at_ m i (NFinish e r) -> at_ m j (NFinish e r') -> i = j.
Proof.
  intros N Hi Hj.
  assert (G : forall i j r r', i < j -> at_ m i (NFinish e r) -> at_ m j (NFinish e r') -> False).
  { clear Hi Hj. intros i' j' r1 r2 L [t Hi] [u Hj]. apply nth_error_split in Hi. destruct Hi as [m1 [m2 [-> El]]].
    rewrite nth_error_app2 in Hj by lia. destruct (j' - length m1) as [|q] eqn:Eq; [lia|]. cbn [nth_error] in Hj. apply nth_error_In in Hj.
    rewrite trace_of_app in N. change (trace_of ((t, HNote (NFinish e r1)) :: m2)) with (GFinish e r1 :: trace_of m2) in N.
    rewrite finishes_app, map_app in N. apply NoDup_remove_2 in N.
    assert (X : In e (map fst (finishes (trace_of m2)))).
    { apply in_map_iff. exists (e, r2). split; [reflexivity|]. apply in_finishes. unfold trace_of. apply in_flat_map. exists (u, HNote (NFinish e r2)). split; [exact Hj|left; reflexivity]. }
    apply N. apply in_or_app. right. exact X. }
  destruct (Nat.lt_trichotomy i j) as [L|[L|L]]; [destruct (G _ _ _ _ L Hi Hj)|exact L|destruct (G _ _ _ _ L Hj Hi)].
Qed.
Lemma HI_trace h : HI h -> trace_of (h_log h) = trace (h_s h) \/ (before (h_s h) /\ Pre (h_log h)).
Proof. intros H. destruct (hi_phase h H) as [X|[_ [b [C _]]]]; [right; exact X|left; apply (co_tr _ _ _ _ C)]. Qed.
Lemma pre_trace q : Pre q -> trace_of q = [].
Proof.
  intros Hq. unfold trace_of. induction q as [|[t a] q IH]; [reflexivity|]. cbn [flat_map].
  rewrite IH; [|intros j u n0 X; apply (Hq (S j) u n0); exact X]. rewrite app_nil_r. unfold ev_of. cbn [snd].
  destruct a as [n0| | | | | |]; try reflexivity. destruct (Hq 0 t n0 eq_refl) as [_ [->|[->| ->]]]; reflexivity.
Qed.
Lemma trace_eq h : HI h -> trace_of (h_log h) = trace (h_s h).
Proof.
  intros H. destruct (HI_trace h H) as [X|[B P]]; [exact X|]. rewrite (pre_trace _ P). destruct (before_harmless _ (hi_inv h H) B) as [_ T]. symmetry. exact T.
Qed.
End Eng.
