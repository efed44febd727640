(** Pipeline life cycle. *)
From Verif Require Import PipeModel ElemProofs StatusProofs.
From Coq Require Import Lia.
Local Open Scope nat_scope.
Local Open Scope list_scope.

Section elt_ind.
Variable P : elt -> Prop.
Hypothesis HN : forall e, P (Node e).
Hypothesis HP : forall e cs, Forall P cs -> P (Plain e cs).
Hypothesis HR : forall e cs, Forall P cs -> P (Region e cs).
Fixpoint elt_rect' (t : elt) : P t :=
  match t with
  | Node e => HN e
  | Plain e cs => HP e cs ((fix go l := match l return Forall P l with [] => Forall_nil P | c :: r => Forall_cons c (elt_rect' c) (go r) end) cs)
  | Region e cs => HR e cs ((fix go l := match l return Forall P l with [] => Forall_nil P | c :: r => Forall_cons c (elt_rect' c) (go r) end) cs)
  end.
End elt_ind.

(** The elements whose is_init_ is set by a successful fatProcessor(INIT) of [t] itself. *)
Fixpoint inner (t : elt) : list nat :=
  match t with Node _ => [] | Plain e cs => e :: flat_map inner cs | Region e cs => e :: flat_map (fun c => eid c :: inner c) cs end.
Definition mgr_ids (cs : list elt) : list nat := flat_map (fun c => eid c :: inner c) cs.
(** The user callbacks of a successful init / destroy of [t], in order. *)
Fixpoint life_calls (b : bool) (t : elt) : list pcall :=
  match t with
  | Node e => [if b then KInit e else KDestroy e]
  | Plain _ cs => flat_map (life_calls b) cs
  | Region e cs => (if b then [KDag (Some e)] else []) ++ flat_map (life_calls b) cs
  end.

Lemma inner_ids t : incl (inner t) (ids t).
Proof.
  induction t as [e|e cs IH|e cs IH] using elt_rect'; cbn; [now intros x []| |].
  - intros x [<-|Hx]; [now left|right]. apply in_flat_map in Hx. destruct Hx as (c & Hc & Hx). rewrite Forall_forall in IH.
    apply in_flat_map. exists c. split; [exact Hc|]. now apply IH.
  - intros x [<-|Hx]; [now left|right]. apply in_flat_map in Hx. destruct Hx as (c & Hc & Hx). rewrite Forall_forall in IH.
    apply in_flat_map. exists c. split; [exact Hc|]. destruct Hx as [<-|Hx]; [|now apply IH]. destruct c; now left.
Qed.
Lemma mgr_ids_all c : incl (mgr_ids (c_elems c)) (all_ids c).
Proof.
  intros x Hx. apply in_flat_map in Hx. destruct Hx as (t & Ht & Hx). apply in_flat_map. exists t. split; [exact Ht|].
  destruct Hx as [<-|Hx]; [destruct t; now left|now apply inner_ids].
Qed.

Lemma plus_nonneg st v : (0 <= code (st_plus st v))%Z <-> (0 <= code st)%Z /\ (0 <= code v)%Z.
Proof.
  unfold st_plus. destruct (isErr st) eqn:E1, (isErr v) eqn:E2; cbn [negb andb];
    rewrite ?isErr_lt, ?isErr_ge in *; cbn [code]; lia.
Qed.
Lemma code_default : (0 <= code st_default)%Z.
Proof. cbn. unfold STATUS_OK. lia. Qed.
Section P.
Variable ask : pask.
Definition pfaithful (l0 d : plog) : Prop := forall a c r b, d = a ++ (c, r) :: b -> r = ask (l0 ++ a) c.
Lemma pf_nil l0 : pfaithful l0 [].
Proof. intros a c r b E. destruct a; discriminate. Qed.
Lemma pf_app l0 d1 d2 : pfaithful l0 d1 -> pfaithful (l0 ++ d1) d2 -> pfaithful l0 (d1 ++ d2).
Proof.
  intros F1 F2 a c r b E. destruct (app_eq_app _ _ _ _ E) as (x & [[E1 E2]|[E1 E2]]).
  - destruct x as [|[c1 r1] x].
    + rewrite app_nil_r in E1. subst a. cbn in E2. specialize (F2 [] c r b (eq_sym E2)). now rewrite app_nil_r in F2.
    + cbn in E2. inversion E2; subst. now apply (F1 a c1 r1 x).
  - subst a. rewrite E2 in F2. specialize (F2 x c r b eq_refl). now rewrite <- app_assoc in F2.
Qed.
Lemma pf_one l0 c : pfaithful l0 [(c, ask l0 c)].
Proof. intros [|x a] c0 r b E; inversion E; subst; [now rewrite app_nil_r|]. destruct a; discriminate. Qed.

Lemma add_loop_spec f ks : forall st l l' st', add_loop ask f ks st l = (l', st') ->
  exists d, l' = l ++ d /\ map fst d = map f ks /\ st' = st_sum st (map (fun e => pr_st (snd e)) d) /\ pfaithful l d.
Proof.
  induction ks as [|k ks IH]; intros st l l' st' E; cbn in E.
  - inversion E; subst. exists []. rewrite app_nil_r. repeat split. apply pf_nil.
  - apply IH in E. destruct E as (d & -> & H1 & H2 & H3). exists ((f k, ask l (f k)) :: d). rewrite <- app_assoc. cbn. rewrite H1. repeat split; auto.
    apply (pf_app l [(f k, ask l (f k))] d); [apply pf_one|exact H3].
Qed.
Lemma void_loop_spec f ks : forall l, exists d, void_loop ask f ks l = l ++ d /\ map fst d = map f ks /\ pfaithful l d.
Proof.
  induction ks as [|k ks IH]; intro l; cbn.
  - exists []. rewrite app_nil_r. repeat split. apply pf_nil.
  - destruct (IH (l ++ [(f k, ask l (f k))])) as (d & -> & H & F). exists ((f k, ask l (f k)) :: d). rewrite <- app_assoc. cbn. rewrite H. repeat split.
    apply (pf_app l [(f k, ask l (f k))] d); [apply pf_one|exact F].
Qed.
Lemma suit_loop_spec es : forall st l l' o, (0 <= code st)%Z -> suit_loop ask es st l = (l', o) ->
  exists d, l' = l ++ d /\ pfaithful l d /\ map fst d = map KSuit (firstn (List.length d) es) /\
    ((exists v, o = Val v /\ (0 <= code v)%Z /\ List.length d = List.length es /\ Forall (fun e => (0 <= code (pr_st (snd e)))%Z) d) \/
     (exists d0 e, d = d0 ++ [e] /\ (code (pr_st (snd e)) < 0)%Z /\
        o = if (code (pr_st (snd e)) =? -996)%Z then Thrown (what_of (info (pr_st (snd e)))) else Val (pr_st (snd e)))).
Proof.
  induction es as [|e es IH]; intros st l l' o Hst E; cbn in E.
  - inversion E; subst. exists []. rewrite app_nil_r. split; [easy|]. split; [apply pf_nil|]. split; [easy|]. left. exists st. auto.
  - set (a := ask l (KSuit e)) in *. destruct (Z_lt_ge_dec (code (pr_st a)) 0) as [Hv|Hv].
    + rewrite assign_err, check_status_err in E by assumption.
      assert (X : (l', o) = (l ++ [(KSuit e, a)], if (code (pr_st a) =? -996)%Z then Thrown (what_of (info (pr_st a))) else Val (pr_st a))).
      { destruct (code (pr_st a) =? -996)%Z; now rewrite <- E. }
      inversion X; subst. exists [(KSuit e, a)]. split; [easy|]. split; [apply pf_one|]. split; [easy|]. right. exists [], (KSuit e, a). auto.
    + rewrite check_status_ok in E by (rewrite assign_code; lia). apply IH in E; [|rewrite assign_code; lia].
      destruct E as (d & -> & F & M & H). exists ((KSuit e, a) :: d). rewrite <- app_assoc. split; [easy|].
      split; [apply (pf_app l [(KSuit e, a)] d); [apply pf_one|exact F]|]. split; [cbn; now rewrite M|].
      destruct H as [(v & H1 & H2 & H3 & H4)|(d0 & x & -> & H1 & H2)].
      * left. exists v. cbn. rewrite H3. repeat split; auto. constructor; [cbn; lia|exact H4].
      * right. exists ((KSuit e, a) :: d0), x. auto.
Qed.

Lemma wrap_code v : code (fat_wrap (Val v)) = code v. Proof. apply assign_code. Qed.
Lemma wrap_thrown m : code (fat_wrap (Thrown m)) = (-996)%Z. Proof. unfold fat_wrap. rewrite assign_code. reflexivity. Qed.

(** What processing one element does to the flags and the log. *)
Definition life_spec (b : bool) (f : elt -> EL -> EL * status) (t : elt) : Prop := forall fl l fl' l' st, f t (fl, l) = ((fl', l'), st) ->
  exists d, l' = l ++ d /\ pfaithful l d /\
    (forall x, fl' x = fl x \/ (fl' x = b /\ In x (inner t))) /\
    ((0 <= code st)%Z -> map fst d = life_calls b t /\ forall x, In x (inner t) -> fl' x = b).

Lemma plain_loop_spec b f cs : Forall (life_spec b f) cs -> forall st fl l fl' l' st', plain_loop f cs st (fl, l) = ((fl', l'), st') ->
  exists d, l' = l ++ d /\ pfaithful l d /\
    (forall x, fl' x = fl x \/ (fl' x = b /\ In x (flat_map inner cs))) /\
    ((0 <= code st')%Z -> (0 <= code st)%Z /\ map fst d = flat_map (life_calls b) cs /\ forall x, In x (flat_map inner cs) -> fl' x = b).
Proof.
  intro F. induction F as [|c cs Hc F IH]; intros st fl l fl' l' st' E; cbn in E.
  - inversion E; subst. exists []. rewrite app_nil_r. split; [easy|]. split; [apply pf_nil|]. split; [auto|]. intro. repeat split; auto. intros x [].
  - destruct (f c (fl, l)) as [[fl1 l1] v] eqn:E1. destruct (Hc _ _ _ _ _ E1) as (d1 & -> & F1 & A1 & S1).
    destruct (IH _ _ _ _ _ _ E) as (d2 & -> & F2 & A2 & S2).
    exists (d1 ++ d2). split; [now rewrite app_assoc|]. split; [now apply pf_app|]. split.
    + intro x. cbn. rewrite in_app_iff. destruct (A2 x) as [H|[H1 H2]]; [rewrite H|now right; auto]. destruct (A1 x) as [H1|[H1 H2]]; auto.
    + intro H. destruct (S2 H) as (H1 & H2 & H3).
      assert (X : (0 <= code st)%Z /\ (0 <= code v)%Z).
      { now apply plus_nonneg. }
      destruct X as [X1 X2]. destruct (S1 X2) as [Y1 Y2]. split; [exact X1|]. split; [rewrite map_app, Y1, H2; reflexivity|].
      intros x Hx. cbn in Hx. rewrite in_app_iff in Hx. destruct (A2 x) as [Z|[Z _]]; [|exact Z].
      destruct Hx as [Hx|Hx]; [|now apply H3]. rewrite Z. now apply Y2.
Qed.
Lemma upd_cases (fl : nat -> bool) e b x : upd fl e b x = b /\ x = e \/ upd fl e b x = fl x.
Proof. unfold upd. destruct (Nat.eqb_spec x e); auto. Qed.

Lemma mgr_loop_spec b f cs : Forall (life_spec b f) cs -> forall st fl l fl' l' o, (0 <= code st)%Z -> mgr_loop f b cs st (fl, l) = ((fl', l'), o) ->
  exists d, l' = l ++ d /\ pfaithful l d /\
    (forall x, fl' x = fl x \/ (fl' x = b /\ In x (mgr_ids cs))) /\
    ((exists v, o = Val v) \/ (exists m, o = Thrown m)) /\
    (forall v, o = Val v -> (0 <= code v)%Z -> map fst d = flat_map (life_calls b) cs /\ forall x, In x (mgr_ids cs) -> fl' x = b).
Proof.
  intro F. induction F as [|c cs Hc F IH]; intros st fl l fl' l' o Hst E; cbn in E.
  - inversion E; subst. exists []. rewrite app_nil_r. split; [easy|]. split; [apply pf_nil|]. split; [auto|]. split; [left; now exists st|]. intros v _ _. split; [easy|]. intros x [].
  - destruct (f c (fl, l)) as [[fl1 l1] v] eqn:E1. destruct (Hc _ _ _ _ _ E1) as (d1 & -> & F1 & A1 & S1).
    destruct (Z_lt_ge_dec (code v) 0) as [Hv|Hv].
    + rewrite assign_err, check_status_err in E by assumption.
      assert (X : fl' = fl1 /\ l' = l ++ d1 /\ (o = Thrown (what_of (info v)) \/ o = Val v)).
      { destruct (code v =? -996)%Z; inversion E; auto. }
      destruct X as (-> & -> & Ho). exists d1. split; [easy|]. split; [exact F1|]. split.
      { intro x. cbn. rewrite in_app_iff. destruct (A1 x) as [H|[H1 H2]]; auto. }
      split; [destruct Ho as [->| ->]; eauto|]. intros w Hw Hc'. destruct Ho as [->| ->]; [discriminate|]. inversion Hw; subst. lia.
    + rewrite check_status_ok in E by (rewrite assign_code; lia). assert (Hst' : (0 <= code (st_assign st v))%Z) by (rewrite assign_code; lia). destruct (IH _ _ _ _ _ _ Hst' E) as (d2 & -> & F2 & A2 & O2 & S2).
      exists (d1 ++ d2). split; [now rewrite app_assoc|]. split; [now apply pf_app|]. split.
      { intro x. cbn. rewrite in_app_iff. destruct (A2 x) as [H|[H1 H2]]; [|now right; auto]. rewrite H. destruct (upd_cases fl1 (eid c) b x) as [[-> ->]| ->]; [right; auto|].
        destruct (A1 x) as [H1|[H1 H2]]; auto. }
      split; [exact O2|]. intros w Hw Hcw. destruct (S2 w Hw Hcw) as [Y1 Y2]. destruct (S1 ltac:(lia)) as [Z1 Z2]. split; [rewrite map_app, Z1, Y1; reflexivity|].
      intros x Hx. cbn in Hx. rewrite in_app_iff in Hx. destruct (A2 x) as [Z|[Z _]]; [|exact Z]. destruct Hx as [Hx|[Hx|Hx]]; [| |now apply Y2].
      * rewrite Z, <- Hx. unfold upd. now rewrite Nat.eqb_refl.
      * rewrite Z. destruct (upd_cases fl1 (eid c) b x) as [[-> _]| ->]; [easy|]. now apply Z2.
Qed.
Definition mgr_calls (b : bool) (who : option nat) (cs : list elt) : list pcall := (if b then [KDag who] else []) ++ flat_map (life_calls b) cs.
Lemma mgr_life_spec b f who cs : Forall (life_spec b f) cs -> forall fl l fl' l' o, mgr_life ask f b who cs (fl, l) = ((fl', l'), o) ->
  exists d, l' = l ++ d /\ pfaithful l d /\
    (forall x, fl' x = fl x \/ (fl' x = b /\ In x (mgr_ids cs))) /\
    ((exists v, o = Val v) \/ (exists m, o = Thrown m)) /\
    (forall v, o = Val v -> (0 <= code v)%Z -> map fst d = mgr_calls b who cs /\ forall x, In x (mgr_ids cs) -> fl' x = b) /\
    (b = true -> pr_flag (ask l (KDag who)) = false -> o = Val (st_err "it is not a dag struct") /\ forall x, fl' x = fl x).
Proof.
  intros F fl l fl' l' o E. unfold mgr_life in E. destruct b; cbn [fst snd] in E.
  - destruct (pr_flag (ask l (KDag who))) eqn:Ef.
    + destruct (mgr_loop_spec true f cs F _ _ _ _ _ _ code_default E) as (d & -> & F2 & A & O & S).
      exists ((KDag who, ask l (KDag who)) :: d). split; [now rewrite <- app_assoc|].
      split; [apply (pf_app l [(KDag who, ask l (KDag who))] d); [apply pf_one|exact F2]|]. split; [exact A|]. split; [exact O|].
      split; [|discriminate]. intros v Hv Hc. destruct (S v Hv Hc) as [S1 S2]. split; [cbn; now rewrite S1|exact S2].
    + inversion E; subst. exists [(KDag who, ask l (KDag who))]. split; [easy|]. split; [apply pf_one|]. split; [auto|]. split; [left; now eexists|].
      split; [intros v Hv Hc; injection Hv as <-; vm_compute in Hc; now destruct Hc|]. auto.
  - destruct (mgr_loop_spec false f cs F _ _ _ _ _ _ code_default E) as (d & -> & F2 & A & O & S).
    exists d. split; [easy|]. split; [exact F2|]. split; [exact A|]. split; [exact O|]. split; [exact S|discriminate].
Qed.

Lemma fat_life_spec b t : life_spec b (fat_life ask b) t.
Proof.
  induction t as [e|e cs IH|e cs IH] using elt_rect'; intros fl l fl' l' st E.
  - cbn [fat_life fst snd] in E. inversion E; subst. exists [(if b then KInit e else KDestroy e, ask l (if b then KInit e else KDestroy e))].
    split; [easy|]. split; [apply pf_one|]. split; [auto|]. intros _. split; [reflexivity|]. intros x [].
  - cbn [fat_life] in E. destruct (plain_loop (fat_life ask b) cs st_default (fl, l)) as [[fl1 l1] v] eqn:E1.
    destruct (plain_loop_spec b _ cs IH _ _ _ _ _ _ E1) as (d & -> & F & A & S). exists d.
    destruct (Z_lt_ge_dec (code v) 0) as [Hv|Hv].
    + rewrite check_status_err in E by exact Hv.
      assert (X : fl' = fl1 /\ l' = l ++ d /\ (code st < 0)%Z).
      { destruct (code v =? -996)%Z; injection E as <- <- <-; (split; [easy|]); (split; [easy|]); [rewrite assign_code; reflexivity|rewrite assign_code; exact Hv]. }
      destruct X as (-> & -> & Hst). split; [easy|]. split; [exact F|]. split; [|intro; lia].
      intro x. destruct (A x) as [H|[H1 H2]]; auto. right. split; [exact H1|]. now right.
    + rewrite check_status_ok in E by lia. inversion E; subst. split; [easy|]. split; [exact F|]. split.
      * intro x. destruct (upd_cases fl1 e b x) as [[-> ->]| ->]; [right; split; [easy|now left]|]. destruct (A x) as [H|[H1 H2]]; auto. right. split; [exact H1|now right].
      * intros _. destruct (S ltac:(lia)) as (_ & S1 & S2). split; [exact S1|]. intros x Hx. destruct (upd_cases fl1 e b x) as [[-> _]| Hu]; [easy|].
        destruct Hx as [<-|Hx]; [unfold upd; now rewrite Nat.eqb_refl|]. rewrite Hu. now apply S2.
  - cbn [fat_life] in E. destruct (mgr_life ask (fat_life ask b) b (Some e) cs (fl, l)) as [[fl1 l1] o] eqn:E1.
    destruct (mgr_life_spec b _ (Some e) cs IH _ _ _ _ _ E1) as (d & -> & F & A & O & S & _). exists d.
    assert (BAD : fl' = fl1 -> l' = l ++ d -> (code st < 0)%Z ->
      l' = l ++ d /\ pfaithful l d /\ (forall x, fl' x = fl x \/ fl' x = b /\ In x (inner (Region e cs))) /\
      ((0 <= code st)%Z -> map fst d = life_calls b (Region e cs) /\ (forall x, In x (inner (Region e cs)) -> fl' x = b))).
    { intros -> -> Hst. split; [easy|]. split; [exact F|]. split; [|intro; lia].
      intro x. destruct (A x) as [H|[H1 H2]]; auto. right. split; [exact H1|]. now right. }
    destruct O as [[v ->]|[m ->]].
    + destruct (Z_lt_ge_dec (code v) 0) as [Hv|Hv].
      * rewrite assign_err, check_status_err in E by (first [exact Hv|cbn; unfold STATUS_OK; lia]).
        apply BAD; destruct (code v =? -996)%Z; injection E as <- <- <-; auto; [rewrite assign_code; reflexivity|rewrite assign_code; exact Hv].
      * rewrite check_status_ok in E by (rewrite assign_code; lia). inversion E; subst. split; [easy|]. split; [exact F|]. split.
        -- intro x. destruct (upd_cases fl1 e b x) as [[-> ->]| ->]; [right; split; [easy|now left]|]. destruct (A x) as [H|[H1 H2]]; auto. right. split; [exact H1|now right].
        -- intros _. destruct (S v eq_refl ltac:(lia)) as (S1 & S2). split; [exact S1|]. intros x Hx. destruct (upd_cases fl1 e b x) as [[-> _]| Hu]; [easy|].
           destruct Hx as [<-|Hx]; [unfold upd; now rewrite Nat.eqb_refl|]. rewrite Hu. now apply S2.
    + injection E as <- <- <-. apply BAD; auto. rewrite assign_code. reflexivity.
Qed.
Lemma fat_life_all b cs : Forall (life_spec b (fat_life ask b)) cs.
Proof. apply Forall_forall. intros t _. apply fat_life_spec. Qed.
End P.
