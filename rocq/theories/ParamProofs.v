(** Proofs about parameters. *)
From Verif Require Export ParamSpec.
From Coq Require Import Lia.
Local Open Scope nat_scope.
Local Open Scope list_scope.

Lemma snoc_split {A} (h : list A) o a x b : h ++ [o] = a ++ x :: b -> (b = [] /\ a = h /\ x = o) \/ (exists b', b = b' ++ [o] /\ h = a ++ x :: b').
Proof.
  intros E. destruct b as [|w b] using rev_ind.
  - left. apply app_inj_tail in E. destruct E as [-> ->]. easy.
  - clear IHb. right. exists b. rewrite app_comm_cons, app_assoc in E. apply app_inj_tail in E. destruct E as [-> ->]. easy.
Qed.
Lemma ends_dec o k : ends o k \/ ~ ends o k.
Proof. unfold ends. destruct o; try (right; intros [H|H]; discriminate); [|left; now right].
  destruct (Nat.eq_dec k0 k) as [->|Hne]; [left; now left|]. right. intros [H|H]; congruence. Qed.
Lemma asks_not_ends o k t k' : asks o k t -> ~ ends o k'.
Proof. intros [->| ->] [H|H]; discriminate. Qed.
Lemma free_nil k : free [] k.
Proof. intros a o t b E. now destruct a. Qed.
Lemma free_snoc h o k : free (h ++ [o]) k <-> ends o k \/ (free h k /\ forall t, ~ asks o k t).
Proof.
  split.
  - intros H. destruct (ends_dec o k) as [He|He]; [now left|]. right. split.
    + intros a x t b E Ha. destruct (H a x t (b ++ [o])) as [e [Hi Hee]]; [rewrite E, <- app_assoc; easy|easy|].
      apply in_app_or in Hi. destruct Hi as [Hi|[<-|[]]]; [|contradiction]. now exists e.
    + intros t Ha. destruct (H h o t [] eq_refl Ha) as [e [[] _]].
  - intros H a x t b E Ha. apply snoc_split in E. destruct E as [[-> [-> ->]]|[b' [-> E]]].
    + exfalso. destruct H as [H|[_ H]]; [now apply (asks_not_ends o k t k)|now apply (H t)].
    + destruct H as [H|[H _]].
      * exists o. split; [apply in_or_app; right; now left|easy].
      * destruct (H a x t b' E Ha) as [e [Hi He]]. exists e. split; [apply in_or_app; now left|easy].
Qed.
Lemma alive_nil k t n : ~ alive [] k t n.
Proof. intros [a [o [b [E _]]]]. now destruct a. Qed.
Lemma alive_snoc h o k t n : alive (h ++ [o]) k t n <-> (alive h k t n /\ ~ ends o k) \/ (asks o k t /\ free h k /\ n = length h).
Proof.
  split.
  - intros [a [x [b [E [Ha [Hf [-> He]]]]]]]. apply snoc_split in E. destruct E as [[-> [-> ->]]|[b' [-> E]]].
    + now right.
    + left. split.
      * exists a, x, b'. do 4 (split; [easy|]). intros e Hi. apply He. apply in_or_app. now left.
      * apply He. apply in_or_app. right. now left.
  - intros [[[a [x [b [-> [Ha [Hf [-> He]]]]]]] Hn]|[Ha [Hf ->]]].
    + exists a, x, (b ++ [o]). rewrite <- app_assoc. do 4 (split; [easy|]). intros e Hi. apply in_app_or in Hi.
      destruct Hi as [Hi|[<-|[]]]; [now apply He|easy].
    + exists h, o, []. easy.
Qed.
Lemma alive_not_free h k t n : alive h k t n -> ~ free h k.
Proof. intros [a [o [b [E [Ha [_ [_ He]]]]]]] Hf. destruct (Hf a o t b E Ha) as [e [Hi H]]. now apply (He e). Qed.
Lemma alive_nth h k t n : alive h k t n -> exists o, nth_error h n = Some o /\ asks o k t.
Proof. intros [a [o [b [-> [Ha [_ [-> _]]]]]]]. exists o. split; [|easy]. rewrite nth_error_app2 by lia. now rewrite Nat.sub_diag. Qed.
Lemma alive_lt h k t n : alive h k t n -> n < length h.
Proof. intros H. apply alive_nth in H. destruct H as [o [H _]]. apply nth_error_Some. congruence. Qed.
Lemma asks_inj o k t k' t' : asks o k t -> asks o k' t' -> k = k' /\ t = t'.
Proof. intros [->| ->] [H|H]; inversion H; easy. Qed.
Lemma alive_inj h k t k' t' n : alive h k t n -> alive h k' t' n -> k = k' /\ t = t'.
Proof.
  intros H H'. apply alive_nth in H. apply alive_nth in H'. destruct H as [o [E H]]. destruct H' as [o' [E' H']].
  rewrite E in E'. injection E' as <-. now apply (asks_inj o).
Qed.

(** * The association lists *)
Lemma pfind_in k m p : pfind k m = Some p -> In (k, p) m.
Proof. induction m as [|[k' q] r IH]; cbn; [discriminate|]. destruct (Nat.eqb_spec k k') as [->|]; intros H; [injection H as ->; now left|right; auto]. Qed.
Lemma in_pfind k m p : NoDup (map fst m) -> In (k, p) m -> pfind k m = Some p.
Proof.
  induction m as [|[k' q] r IH]; cbn; [easy|]. intros Hn Hi. inversion Hn; subst. destruct Hi as [E|Hi].
  - injection E as -> ->. now rewrite Nat.eqb_refl.
  - destruct (Nat.eqb_spec k k') as [->|]; [|auto]. exfalso. apply H1. now apply (in_map fst) in Hi.
Qed.
Lemma pfind_erase k k' m : pfind k' (perase k m) = if Nat.eqb k' k then None else pfind k' m.
Proof.
  induction m as [|[x q] r IH]; cbn [perase filter pfind fst]; [now destruct (Nat.eqb k' k)|].
  destruct (Nat.eqb_spec x k) as [->|Hx]; cbn [negb].
  - change (filter (fun e => negb (Nat.eqb (fst e) k)) r) with (perase k r). rewrite IH. now destruct (Nat.eqb k' k).
  - cbn [pfind]. change (filter (fun e => negb (Nat.eqb (fst e) k)) r) with (perase k r). rewrite IH.
    destruct (Nat.eqb_spec k' x) as [->|]; [|easy]. destruct (Nat.eqb_spec x k); congruence.
Qed.
Lemma erase_nodup k m : NoDup (map fst m) -> NoDup (map fst (perase k m)).
Proof.
  induction m as [|[x q] r IH]; cbn [perase filter map fst]; intros H; [constructor|]. inversion H; subst.
  change (filter (fun e => negb (Nat.eqb (fst e) k)) r) with (perase k r).
  destruct (negb _); [|auto]. cbn [map fst]. constructor; [|auto].
  intros Hi. apply H2. apply in_map_iff in Hi. destruct Hi as [[a b] [<- Hi]]. apply filter_In in Hi. apply in_map_iff. exists (a, b). easy.
Qed.
Lemma pfind_none k m : pfind k m = None <-> ~ In k (map fst m).
Proof.
  induction m as [|[x q] r IH]; cbn; [easy|]. destruct (Nat.eqb_spec k x) as [->|Hne].
  - split; [discriminate|]. intros H. exfalso. apply H. now left.
  - rewrite IH. intuition congruence.
Qed.

Lemma p_run_app : forall h1 n s h2, p_run n s (h1 ++ h2) = p_run (n + length h1) (p_run n s h1) h2.
Proof. induction h1 as [|o r IH]; intros n s h2; cbn [app p_run length]; [now rewrite Nat.add_0_r|]. rewrite IH. f_equal. lia. Qed.
Lemma p_after_snoc h o : p_after (h ++ [o]) = fst (p_step (length h) (p_after h) o).
Proof. unfold p_after. now rewrite p_run_app. Qed.

(** * The shared map refines the specification *)
Record pinv (h : list pop) (s : pst) : Prop := mk_pinv
  { pi_alive : forall k t n, alive h k t n <-> exists nm, pfind k (ps_map s) = Some (mkP t n nm);
    pi_free : forall k, free h k <-> pfind k (ps_map s) = None;
    pi_nodup : NoDup (map fst (ps_map s)) }.
Lemma pinv_same h s o s' : pinv h s -> ps_map s' = ps_map s ->
  (forall k, ~ ends o k) -> (forall k t, asks o k t -> pfind k (ps_map s) <> None) -> pinv (h ++ [o]) s'.
Proof.
  intros H E He Ha. constructor; rewrite E.
  - intros k t n. rewrite alive_snoc, <- (pi_alive _ _ H). split.
    + intros [[H1 _]|[H1 [H2 _]]]; [easy|]. exfalso. apply (Ha k t H1). now apply (pi_free _ _ H).
    + intros H1. left. easy.
  - intros k. rewrite free_snoc, <- (pi_free _ _ H). split.
    + intros [H1|[H1 _]]; [exfalso; now apply (He k)|easy].
    + intros H1. right. split; [easy|]. intros t H2. apply (Ha k t H2). now apply (pi_free _ _ H).
  - apply H.
Qed.
Lemma pinv_create h s o k t nm s' : pinv h s -> asks o k t -> pfind k (ps_map s) = None ->
  ps_map s' = (k, mkP t (length h) nm) :: ps_map s -> pinv (h ++ [o]) s'.
Proof.
  intros H Ha Hf E.
  assert (He : forall k', ~ ends o k') by (intros k'; now apply (asks_not_ends o k t)).
  constructor; rewrite E; cbn [pfind map fst].
  - intros k' t' n. rewrite alive_snoc. destruct (Nat.eqb_spec k' k) as [->|Hne].
    + split.
      * intros [[H1 _]|[H1 [_ ->]]].
        -- exfalso. apply (alive_not_free _ _ _ _ H1). now apply (pi_free _ _ H).
        -- destruct (asks_inj _ _ _ _ _ Ha H1) as [_ <-]. now exists nm.
      * intros [nm' E']. injection E' as -> -> ->. right. split; [easy|]. split; [now apply (pi_free _ _ H)|easy].
    + rewrite <- (pi_alive _ _ H). split; [|intros H1; left; easy]. intros [[H1 _]|[H1 _]]; [easy|]. destruct (asks_inj _ _ _ _ _ Ha H1). congruence.
  - intros k'. rewrite free_snoc. destruct (Nat.eqb_spec k' k) as [->|Hne].
    + split; [|discriminate]. intros [H1|[_ H1]]; exfalso; [now apply (He k)|now apply (H1 t)].
    + rewrite <- (pi_free _ _ H). split.
      * intros [H1|[H1 _]]; [exfalso; now apply (He k')|easy].
      * intros H1. right. split; [easy|]. intros t' H2. destruct (asks_inj _ _ _ _ _ Ha H2). congruence.
  - constructor; [now apply pfind_none|apply H].
Qed.
Lemma not_asks_remove k k' t : ~ asks (PRemove k) k' t.
Proof. intros [H|H]; discriminate. Qed.
Lemma pinv_step h o : pinv h (p_after h) -> pinv (h ++ [o]) (p_after (h ++ [o])).
Proof.
  intros H. rewrite p_after_snoc. set (s := p_after h) in *.
  assert (Hne : forall k, (forall k', o <> PRemove k') -> o <> PClear -> ~ ends o k) by (intros k H1 H2 [H3|H3]; [now apply (H1 k)|now apply H2]).
  assert (Hna : (forall k t, o <> PCreate k t) -> (forall k t, o <> PCreatePy k t) -> forall k t, asks o k t -> pfind k (ps_map s) <> None).
  { intros H1 H2 k t [->| ->]; [now apply (H1 k t) in H1 || now destruct (H1 k t)|now destruct (H2 k t)]. }
  destruct o; cbn [p_step fst].
  - unfold pm_create. destruct (pfind k (ps_map s)) as [p|] eqn:E; cbn [fst].
    + apply (pinv_same h s); [easy|easy|intros k'; now apply Hne|]. intros k' t' [H1|H1]; inversion H1; subst. congruence.
    + apply (pinv_create h s _ k t (Some k)); [easy|now left|easy|easy].
  - unfold pm_create_py. destruct (pfind k (ps_map s)) as [p|] eqn:E; cbn [fst].
    + apply (pinv_same h s); [easy|easy|intros k'; now apply Hne|]. intros k' t' [H1|H1]; inversion H1; subst. congruence.
    + apply (pinv_create h s _ k t None); [easy|now right|easy|easy].
  - unfold w_get. apply (pinv_same h s); [easy|now destruct (pm_get k t s)|intros k'; now apply Hne|now apply Hna].
  - unfold pm_remove. destruct (pfind k (ps_map s)) as [p|] eqn:E; cbn [fst].
    + assert (Hk : forall k', ends (PRemove k) k' <-> k' = k) by (intros k'; unfold ends; split; [intros [H1|H1]; congruence|intros ->; now left]).
      constructor; cbn [ps_map set_freed set_map].
      * intros k' t n. rewrite alive_snoc, pfind_erase, Hk. destruct (Nat.eqb_spec k' k) as [->|Hx].
        -- split; [intros [[_ H1]|[H1 _]]; [congruence|now apply not_asks_remove in H1]|intros [nm H1]; discriminate].
        -- rewrite <- (pi_alive _ _ H). split; [intros [[H1 _]|[H1 _]]; [easy|now apply not_asks_remove in H1]|intros H1; left; easy].
      * intros k'. rewrite free_snoc, pfind_erase, Hk. destruct (Nat.eqb_spec k' k) as [->|Hx]; [split; [easy|now left]|].
        rewrite <- (pi_free _ _ H). split; [intros [H1|[H1 _]]; [congruence|easy]|]. intros H1. right. split; [easy|]. intros t. apply not_asks_remove.
      * apply erase_nodup, H.
    + assert (Hk : forall k', ends (PRemove k) k' <-> k' = k) by (intros k'; unfold ends; split; [intros [H1|H1]; congruence|intros ->; now left]).
      constructor.
      * intros k' t n. rewrite alive_snoc, <- (pi_alive _ _ H), Hk. split.
        -- intros [[H1 _]|[H1 _]]; [easy|now apply not_asks_remove in H1].
        -- intros H1. left. split; [easy|]. intros ->. apply (alive_not_free _ _ _ _ H1). now apply (pi_free _ _ H).
      * intros k'. rewrite free_snoc, Hk. split.
        -- intros [->|[H1 _]]; [easy|now apply (pi_free _ _ H)].
        -- intros H1. right. split; [now apply (pi_free _ _ H)|]. intros t. apply not_asks_remove.
      * apply H.
  - apply (pinv_same h s); [easy|easy|intros k'; now apply Hne|now apply Hna].
  - apply (pinv_same h s); [easy|easy|intros k'; now apply Hne|now apply Hna].
  - constructor; cbn.
    + intros k t n. rewrite alive_snoc. split; [|intros [nm H1]; discriminate].
      intros [[_ H1]|[[H1|H1] _]]; try discriminate. exfalso. apply H1. now right.
    + intros k. rewrite free_snoc. split; [easy|]. intros _. left. now right.
    + constructor.
  - apply (pinv_same h s); [easy|easy|intros k'; now apply Hne|now apply Hna].
  - apply (pinv_same h s); [easy|easy|intros k'; now apply Hne|now apply Hna].
  - apply (pinv_same h s); [easy|easy|intros k'; now apply Hne|now apply Hna].
  - unfold e_add. apply (pinv_same h s); [easy|now destruct (ps_init s e)|intros k'; now apply Hne|now apply Hna].
  - apply (pinv_same h s); [easy|easy|intros k'; now apply Hne|now apply Hna].
Qed.
Lemma pinv_all h : pinv h (p_after h).
Proof.
  induction h as [|o r IH] using rev_ind.
  - constructor; cbn.
    + intros k t n. split; [intros H; now apply alive_nil in H|intros [nm H]; discriminate].
    + intros k. split; [easy|]. intros _. apply free_nil.
    + constructor.
  - now apply pinv_step.
Qed.

(** * Local parameters *)
Lemma early_snoc h o e : early (h ++ [o]) e <-> early h e /\ o <> PInit e.
Proof. unfold early. rewrite in_app_iff. cbn. intuition congruence. Qed.
Lemma local_snoc h o e k t n : local (h ++ [o]) e k t n <->
  (o = PAddE e k t /\ n = length h /\ early h e) \/ (local h e k t n /\ ~ exists t', o = PAddE e k t' /\ early h e).
Proof.
  split.
  - intros [a [b [E [-> [He Hl]]]]]. apply snoc_split in E. destruct E as [[-> [-> <-]]|[b' [-> E]]].
    + now left.
    + right. split.
      * exists a, b'. do 3 (split; [easy|]). intros b1 t' b2 Eb. apply (Hl b1 t' (b2 ++ [o])). rewrite Eb, <- app_assoc. easy.
      * intros [t' [-> Hh]]. apply (Hl b' t' [] eq_refl). now rewrite <- E.
  - intros [[-> [-> He]]|[[a [b [E [-> [He Hl]]]]] Hn]].
    + exists h, []. do 3 (split; [easy|]). intros [|x b1] t' b2 Eb; discriminate.
    + exists a, (b ++ [o]). rewrite E, <- app_assoc. do 3 (split; [easy|]). intros b1 t' b2 Eb.
      apply snoc_split in Eb. destruct Eb as [[-> [-> <-]]|[b2' [-> Eb]]].
      * intros Hx. apply Hn. exists t'. split; [easy|]. now rewrite E.
      * now apply (Hl b1 t' b2').
Qed.
Record linv (h : list pop) (s : pst) : Prop := mk_linv
  { lv_local : forall e k t n, local h e k t n <-> exists nm, pfind k (ps_local s e) = Some (mkP t n nm);
    lv_init : forall e, ps_init s e = false <-> early h e }.
Lemma linv_same h s o s' : linv h s -> ps_local s' = ps_local s -> ps_init s' = ps_init s ->
  (forall e k t, o <> PAddE e k t) -> (forall e, o <> PInit e) -> linv (h ++ [o]) s'.
Proof.
  intros H E1 E2 H1 H2. constructor; rewrite ?E1, ?E2.
  - intros e k t n. rewrite local_snoc, <- (lv_local _ _ H). split.
    + intros [[Hx _]|[Hx _]]; [now apply H1 in Hx|easy].
    + intros Hx. right. split; [easy|]. intros [t' [Hy _]]. now apply H1 in Hy.
  - intros e. rewrite early_snoc, <- (lv_init _ _ H). split; [intros Hx; split; [easy|apply H2]|easy].
Qed.
Lemma linv_step h o : linv h (p_after h) -> linv (h ++ [o]) (p_after (h ++ [o])).
Proof.
  intros H. rewrite p_after_snoc. set (s := p_after h) in *.
  destruct o; cbn [p_step fst]; try (apply (linv_same h s); try easy; fail).
  - apply (linv_same h s); try easy; unfold pm_create; now destruct (pfind k (ps_map s)).
  - apply (linv_same h s); try easy; unfold pm_create_py; now destruct (pfind k (ps_map s)).
  - apply (linv_same h s); try easy; unfold w_get; now destruct (pm_get k t s).
  - apply (linv_same h s); try easy; unfold pm_remove; now destruct (pfind k (ps_map s)).
  - constructor; cbn.
    + intros e' k t n. rewrite local_snoc, <- (lv_local _ _ H). split; [intros [[Hx _]|[Hx _]]; [discriminate|easy]|].
      intros Hx. right. split; [easy|]. intros [t' [Hy _]]. discriminate.
    + intros e'. rewrite early_snoc, <- (lv_init _ _ H). unfold upd. destruct (Nat.eqb_spec e' e) as [->|Hne].
      * split; [discriminate|]. intros [_ Hx]. congruence.
      * split; [intros Hx; split; [easy|congruence]|easy].
  - unfold e_add. destruct (ps_init s e) eqn:Ei; cbn [fst].
    + assert (Hne : ~ early h e) by (rewrite <- (lv_init _ _ H); fold s; congruence). constructor.
      * intros e' k' t' n. rewrite local_snoc, <- (lv_local _ _ H). split.
        -- intros [[Hx [_ Hy]]|[Hx _]]; [|easy]. injection Hx as <- <- <-. contradiction.
        -- intros Hx. right. split; [easy|]. intros [t'' [Hy Hz]]. injection Hy as <- <- <-. contradiction.
      * intros e'. rewrite early_snoc, <- (lv_init _ _ H). split; [intros Hx; easy|easy].
    + apply (lv_init _ _ H) in Ei. constructor; cbn.
      * intros e' k' t' n. rewrite local_snoc. unfold upd. destruct (Nat.eqb_spec e' e) as [->|Hne].
        -- cbn [pfind]. rewrite pfind_erase. destruct (Nat.eqb_spec k' k) as [->|Hk].
           ++ split.
              ** intros [[Hx [-> _]]|[_ Hx]]; [injection Hx as <-; now exists None|]. exfalso. apply Hx. now exists t.
              ** intros [nm Hx]. injection Hx as <- <- <-. now left.
           ++ rewrite <- (lv_local _ _ H). split; [intros [[Hx _]|[Hx _]]; [congruence|easy]|].
              intros Hx. right. split; [easy|]. intros [t'' [Hy _]]. congruence.
        -- rewrite <- (lv_local _ _ H). split; [intros [[Hx _]|[Hx _]]; [congruence|easy]|].
           intros Hx. right. split; [easy|]. intros [t'' [Hy _]]. congruence.
      * intros e'. rewrite early_snoc, <- (lv_init _ _ H). split; [intros Hx; easy|easy].
Qed.
Lemma linv_all h : linv h (p_after h).
Proof.
  induction h as [|o r IH] using rev_ind.
  - constructor; cbn.
    + intros e k t n. split; [intros [a [b [E _]]]; now destruct a|intros [nm H]; discriminate].
    + easy.
  - now apply linv_step.
Qed.
Lemma local_nth h e k t n : local h e k t n -> nth_error h n = Some (PAddE e k t).
Proof. intros [a [b [-> [-> _]]]]. rewrite nth_error_app2 by lia. now rewrite Nat.sub_diag. Qed.

(** * Deletion *)
Record dinv (h : list pop) (s : pst) : Prop := mk_dinv
  { di_nodup : NoDup (ps_freed s);
    di_lt : forall n, In n (ps_freed s) -> n < length h;
    di_alive : forall k t n, alive h k t n -> ~ In n (ps_freed s);
    di_local : forall e k t n, local h e k t n -> ~ In n (ps_freed s);
    di_gone : forall a b k t n, h = a ++ b -> alive a k t n -> alive h k t n \/ In n (ps_freed s);
    di_lgone : forall a b e k t n, h = a ++ b -> local a e k t n -> local h e k t n \/ In n (ps_freed s) }.
Lemma app_snoc_split {A} (h : list A) o a b : h ++ [o] = a ++ b -> (b = [] /\ a = h ++ [o]) \/ (exists b', b = b' ++ [o] /\ h = a ++ b').
Proof.
  intros E. destruct b as [|w b] using rev_ind.
  - left. now rewrite app_nil_r in E.
  - clear IHb. right. exists b. rewrite app_assoc in E. apply app_inj_tail in E. destruct E as [-> ->]. easy.
Qed.
(** One step deletes [d], all of them objects that were alive or local. *)
Lemma dinv_del h s o d s' : dinv h s -> ps_freed s' = d ++ ps_freed s -> NoDup d ->
  (forall n, In n d -> (exists k t, alive h k t n) \/ (exists e k t, local h e k t n)) ->
  (forall k t n, alive h k t n -> (ends o k <-> In n d)) ->
  (forall e k t n, local h e k t n -> ((exists t', o = PAddE e k t' /\ early h e) <-> In n d)) ->
  dinv (h ++ [o]) s'.
Proof.
  intros H E Hd Hl Ha Hlo.
  assert (Hlt : forall n, In n d -> n < length h).
  { intros n Hn. destruct (Hl n Hn) as [[k [t H1]]|[e [k [t H1]]]]; [now apply alive_lt in H1|]. apply local_nth in H1. apply nth_error_Some. congruence. }
  constructor; rewrite ?E.
  - apply NoDup_app_iff. split; [easy|]. split; [apply H|]. intros n Hn Hf. destruct (Hl n Hn) as [[k [t H1]]|[e [k [t H1]]]].
    + now apply (di_alive _ _ H k t n).
    + now apply (di_local _ _ H e k t n).
  - intros n Hn. rewrite app_length. cbn. apply in_app_or in Hn. destruct Hn as [Hn|Hn]; [specialize (Hlt n Hn); lia|]. pose proof (di_lt _ _ H n Hn). lia.
  - intros k t n Hn. rewrite in_app_iff. apply alive_snoc in Hn. destruct Hn as [[Hn He]|[_ [_ ->]]].
    + intros [Hx|Hx]; [apply He; now apply (Ha k t n)|now apply (di_alive _ _ H k t n)].
    + intros [Hx|Hx]; [specialize (Hlt _ Hx); lia|]. pose proof (di_lt _ _ H _ Hx). lia.
  - intros e k t n Hn. rewrite in_app_iff. apply local_snoc in Hn. destruct Hn as [[_ [-> _]]|[Hn He]].
    + intros [Hx|Hx]; [specialize (Hlt _ Hx); lia|]. pose proof (di_lt _ _ H _ Hx). lia.
    + intros [Hx|Hx]; [apply He; now apply (Hlo e k t n)|now apply (di_local _ _ H e k t n)].
  - intros a b k t n Eh Hn. rewrite in_app_iff. apply app_snoc_split in Eh. destruct Eh as [[-> ->]|[b' [-> Eh]]]; [now left|].
    destruct (di_gone _ _ H a b' k t n Eh Hn) as [Hx|Hx]; [|right; now right]. destruct (ends_dec o k) as [He|He].
    + right. left. now apply (Ha k t n).
    + left. apply alive_snoc. now left.
  - intros a b e k t n Eh Hn. rewrite in_app_iff. apply app_snoc_split in Eh. destruct Eh as [[-> ->]|[b' [-> Eh]]]; [now left|].
    destruct (di_lgone _ _ H a b' e k t n Eh Hn) as [Hx|Hx]; [|right; now right].
    destruct (in_dec_nat n d) as [Hi|Hi]; [right; now left|]. left. apply local_snoc. right. split; [easy|].
    intros He. apply Hi. now apply (Hlo e k t n).
Qed.
Lemma dinv_same h s o s' : dinv h s -> ps_freed s' = ps_freed s ->
  (forall k t n, alive h k t n -> ~ ends o k) -> (forall e k t n t', local h e k t n -> o = PAddE e k t' -> early h e -> False) -> dinv (h ++ [o]) s'.
Proof.
  intros H E He Hl. apply (dinv_del h s o []); try easy; [constructor|..].
  - intros k t n Hn. split; [intros Hx; now apply (He k t n) in Hn|easy].
  - intros e k t n Hn. split; [intros [t' [Hx Hy]]; now apply (Hl e k t n t')|easy].
Qed.
Lemma alive_local_disj h k t n e k' t' : alive h k t n -> local h e k' t' n -> False.
Proof. intros H1 H2. apply alive_nth in H1. apply local_nth in H2. destruct H1 as [o [E1 H1]]. rewrite E1 in H2. injection H2 as ->. destruct H1; discriminate. Qed.
Lemma dinv_step h o : dinv h (p_after h) -> dinv (h ++ [o]) (p_after (h ++ [o])).
Proof.
  intros H. pose proof (pinv_all h) as P. pose proof (linv_all h) as L. rewrite p_after_snoc. set (s := p_after h) in *.
  assert (Hne : (forall k', o <> PRemove k') -> o <> PClear -> forall k t n, alive h k t n -> ~ ends o k) by (intros H1 H2 k _ _ _ [H3|H3]; [now apply (H1 k)|now apply H2]).
  destruct o; cbn [p_step fst].
  - apply (dinv_same h s); try easy; [unfold pm_create; now destruct (pfind k (ps_map s))|now apply Hne].
  - apply (dinv_same h s); try easy; [unfold pm_create_py; now destruct (pfind k (ps_map s))|now apply Hne].
  - apply (dinv_same h s); try easy; [unfold w_get; now destruct (pm_get k t s)|now apply Hne].
  - unfold pm_remove. destruct (pfind k (ps_map s)) as [[t0 n0 nm0]|] eqn:E; cbn [fst].
    + assert (Ha : alive h k t0 n0) by (apply (pi_alive _ _ P); now exists nm0).
      apply (dinv_del h s _ [n0]); try easy.
      * constructor; [easy|constructor].
      * intros n [<-|[]]. left. now exists k, t0.
      * intros k' t n Hn. split.
        -- intros [Hx|Hx]; [|discriminate]. injection Hx as ->. apply (pi_alive _ _ P) in Hn. destruct Hn as [nm Hn]. fold s in Hn.
           rewrite E in Hn. injection Hn as -> -> ->. now left.
        -- intros [<-|[]]. destruct (alive_inj _ _ _ _ _ _ Ha Hn) as [-> _]. now left.
      * intros e k' t n Hn. split; [intros [t' [Hx _]]; discriminate|]. intros [<-|[]]. exfalso. now apply (alive_local_disj h k t0 n0 e k' t).
    + apply (dinv_same h s); try easy. intros k' t n Hn [Hx|Hx]; [|discriminate]. injection Hx as ->.
      apply (alive_not_free _ _ _ _ Hn). now apply (pi_free _ _ P).
  - apply (dinv_same h s); try easy. now apply Hne.
  - apply (dinv_same h s); try easy. now apply Hne.
  - unfold pm_clear. cbn [fst].
    assert (Hin : forall n, In n (map (fun e => p_obj (snd e)) (ps_map s)) <-> exists k t, alive h k t n).
    { intros n. rewrite in_map_iff. split.
      - intros [[k [t n' nm]] [Ex Hx]]. cbn in Ex. subst n'. exists k, t. apply (pi_alive _ _ P). exists nm. apply in_pfind; [apply P|easy].
      - intros [k [t Hx]]. apply (pi_alive _ _ P) in Hx. destruct Hx as [nm Hx]. apply pfind_in in Hx. eexists. split; [|exact Hx]. easy. }
    apply (dinv_del h s _ (map (fun e => p_obj (snd e)) (ps_map s))); try easy.
    + assert (Hi : forall k t n nm, In (k, mkP t n nm) (ps_map s) -> alive h k t n).
      { intros k t n nm Hx. apply (pi_alive _ _ P). exists nm. apply in_pfind; [apply P|easy]. }
      pose proof (pi_nodup _ _ P) as Hnd. clear - Hi Hnd. fold s in Hnd. induction (ps_map s) as [|[k [t n nm]] m IH]; cbn; [constructor|].
      cbn in Hnd. inversion Hnd; subst. constructor.
      * intros Hx. apply in_map_iff in Hx. destruct Hx as [[k' [t' n' nm']] [Ex Hx]]. cbn in Ex. subst n'.
        destruct (alive_inj h k t k' t' n) as [<- _]; [apply (Hi k t n nm); now left|apply (Hi k' t' n nm'); now right|].
        apply H1. now apply (in_map fst) in Hx.
      * apply IH; [|easy]. intros k' t' n' nm' Hx. apply (Hi k' t' n' nm'). now right.
    + intros n Hn. left. now apply Hin.
    + intros k t n Hn. split; [intros _; apply Hin; now exists k, t|]. intros _. now right.
    + intros e k t n Hn. split; [intros [t' [Hx _]]; discriminate|]. intros Hx. apply Hin in Hx. destruct Hx as [k' [t' Hx]].
      exfalso. now apply (alive_local_disj h k' t' n e k t).
  - apply (dinv_same h s); try easy. now apply Hne.
  - apply (dinv_same h s); try easy. now apply Hne.
  - apply (dinv_same h s); try easy. now apply Hne.
  - unfold e_add. destruct (ps_init s e) eqn:Ei; cbn [fst].
    + apply (dinv_same h s); try easy; [now apply Hne|]. intros e' k' t' n t'' _ Hx Hy. injection Hx as <- <- <-.
      apply (lv_init _ _ L) in Hy. fold s in Hy. congruence.
    + apply (lv_init _ _ L) in Ei.
      destruct (pfind k (ps_local s e)) as [[t0 n0 nm0]|] eqn:E.
      * assert (Hl : local h e k t0 n0) by (apply (lv_local _ _ L); now exists nm0).
        apply (dinv_del h s _ [n0]); try easy.
        -- constructor; [easy|constructor].
        -- intros n [<-|[]]. right. now exists e, k, t0.
        -- intros k' t' n Hn. split; [intros [Hx|Hx]; discriminate|]. intros [<-|[]]. exfalso. now apply (alive_local_disj h k' t' n0 e k t0).
        -- intros e' k' t' n Hn. split.
           ++ intros [t'' [Hx _]]. injection Hx as <- <- <-. apply (lv_local _ _ L) in Hn. destruct Hn as [nm Hn]. fold s in Hn. rewrite E in Hn. injection Hn as -> -> ->. now left.
           ++ intros [<-|[]]. apply local_nth in Hn. apply local_nth in Hl. rewrite Hl in Hn. injection Hn as <- <- <-. now exists t.
      * apply (dinv_same h s); try easy; [now apply Hne|]. intros e' k' t' n t'' Hx Hy _. injection Hy as <- <- <-.
        apply (lv_local _ _ L) in Hx. destruct Hx as [nm Hx]. fold s in Hx. congruence.
  - apply (dinv_same h s); try easy. now apply Hne.
Qed.
Lemma dinv_all h : dinv h (p_after h).
Proof.
  induction h as [|o r IH] using rev_ind; [|now apply dinv_step]. constructor; cbn; try easy; [constructor|..].
  - intros a b k t n E Hn. symmetry in E. apply app_eq_nil in E. destruct E as [-> _]. now left.
  - intros a b e k t n E Hn. symmetry in E. apply app_eq_nil in E. destruct E as [-> _]. now left.
Qed.

(** * Concerned parameters *)
Lemma got_snoc h o e n : got (h ++ [o]) e n <-> (got h e n /\ o <> PRound e) \/ (exists k t, o = PGet e k t /\ alive h k t n).
Proof.
  split.
  - intros [a [k [t [b [E [Ha Hr]]]]]]. apply snoc_split in E. destruct E as [[-> [-> <-]]|[b' [-> E]]].
    + right. now exists k, t.
    + left. split.
      * exists a, k, t, b'. do 2 (split; [easy|]). intros Hi. apply Hr. apply in_or_app. now left.
      * intros ->. apply Hr. apply in_or_app. right. now left.
  - intros [[[a [k [t [b [-> [Ha Hr]]]]]] Hn]|[k [t [-> Ha]]]].
    + exists a, k, t, (b ++ [o]). rewrite <- app_assoc. do 2 (split; [easy|]). rewrite in_app_iff. intros [Hi|[Hi|[]]]; [contradiction|congruence].
    + exists h, k, t, []. easy.
Qed.
(** The recorded name of a concerned parameter: the key, if it was made by createGParam. *)
Record cinv (h : list pop) (s : pst) : Prop := mk_cinv
  { ci_got : forall e n, In n (map p_obj (ps_conc s e)) <-> got h e n;
    ci_nodup : forall e, NoDup (map p_obj (ps_conc s e));
    ci_name : forall e p, In p (ps_conc s e) -> exists o, nth_error h (p_obj p) = Some o /\
      ((exists k, o = PCreate k (p_type p) /\ p_name p = Some k) \/ (exists k, o = PCreatePy k (p_type p) /\ p_name p = None));
    ci_mname : forall k p, pfind k (ps_map s) = Some p -> exists o, nth_error h (p_obj p) = Some o /\
      ((o = PCreate k (p_type p) /\ p_name p = Some k) \/ (o = PCreatePy k (p_type p) /\ p_name p = None)) }.
Lemma nth_snoc_old {A} (h : list A) o n x : nth_error h n = Some x -> nth_error (h ++ [o]) n = Some x.
Proof. intros E. rewrite nth_error_app1; [easy|]. apply nth_error_Some. congruence. Qed.
Lemma cinv_step h o : cinv h (p_after h) -> cinv (h ++ [o]) (p_after (h ++ [o])).
Proof.
  intros H. pose proof (pinv_all h) as P. rewrite p_after_snoc. set (s := p_after h) in *.
  (* steps that leave the concerned sets as they are *)
  assert (Hsame : forall s', ps_conc s' = ps_conc s -> (forall e, o <> PRound e) -> (forall e k t n, o = PGet e k t -> ~ alive h k t n) ->
            (forall k p, pfind k (ps_map s') = Some p -> pfind k (ps_map s) = Some p \/ (p_obj p = length h /\
               ((o = PCreate k (p_type p) /\ p_name p = Some k) \/ (o = PCreatePy k (p_type p) /\ p_name p = None)))) -> cinv (h ++ [o]) s').
  { intros s' E Hr Hg Hm. constructor; rewrite ?E.
    - intros e n. rewrite got_snoc, (ci_got _ _ H). split; [intros Hx; left; split; [easy|apply Hr]|].
      intros [[Hx _]|[k [t [-> Hx]]]]; [easy|]. exfalso. now apply (Hg e k t n).
    - apply H.
    - intros e p Hp. destruct (ci_name _ _ H e p Hp) as [o' [E' Hx]]. exists o'. split; [now apply nth_snoc_old|easy].
    - intros k p Hp. destruct (Hm k p Hp) as [Hx|[E' Hx]].
      + destruct (ci_mname _ _ H k p Hx) as [o' [E' Hy]]. exists o'. split; [now apply nth_snoc_old|easy].
      + exists o. split; [|easy]. rewrite E', nth_error_app2, Nat.sub_diag by lia. easy. }
  destruct o; cbn [p_step fst].
  - apply Hsame; try easy; unfold pm_create; destruct (pfind k (ps_map s)) as [p0|] eqn:E; try easy; cbn [fst ps_map set_map]; [intros k' p Hp; now left|].
    intros k' p. cbn [pfind]. destruct (Nat.eqb_spec k' k) as [->|]; [|now left]. intros Hx. injection Hx as <-. right. split; [easy|]. now left.
  - apply Hsame; try easy; unfold pm_create_py; destruct (pfind k (ps_map s)) as [p0|] eqn:E; try easy; cbn [fst ps_map set_map]; [intros k' p Hp; now left|].
    intros k' p. cbn [pfind]. destruct (Nat.eqb_spec k' k) as [->|]; [|now left]. intros Hx. injection Hx as <-. right. split; [easy|]. now right.
  - unfold w_get, pm_get. destruct (pfind k (ps_map s)) as [p|] eqn:E.
    + destruct (Nat.eqb_spec t (p_type p)) as [->|Hne]; cbn [fst].
      * assert (Ha : forall n, alive h k (p_type p) n <-> n = p_obj p).
        { intros n. rewrite (pi_alive _ _ P). fold s. rewrite E. destruct p as [t n0 nm]; cbn. split; [intros [nm' Hx]; congruence|intros ->; now exists nm]. }
        assert (Hm : forall x, In x (map p_obj (conc_add p (ps_conc s e))) <-> x = p_obj p \/ In x (map p_obj (ps_conc s e))).
        { intros x. unfold conc_add. destruct (memb _ _) eqn:Em; [apply memb_in in Em; split; [now right|intros [->|]; easy]|]. cbn. intuition congruence. }
        constructor; cbn [ps_conc set_conc ps_map].
        -- intros e' n. rewrite got_snoc. unfold upd. destruct (Nat.eqb_spec e' e) as [->|Hx].
           ++ rewrite Hm, (ci_got _ _ H). split.
              ** intros [->|Hy]; [right; exists k, (p_type p); split; [easy|now apply Ha]|left; easy].
              ** intros [[Hy _]|[k' [t' [Hy Hz]]]]; [now right|]. injection Hy as <- <-. left. now apply Ha.
           ++ rewrite (ci_got _ _ H). split; [intros Hy; left; easy|]. intros [[Hy _]|[k' [t' [Hy Hz]]]]; [easy|congruence].
        -- intros e'. unfold upd. destruct (Nat.eqb_spec e' e) as [->|Hx]; [|apply H]. unfold conc_add.
           destruct (memb _ _) eqn:Em; [apply H|]. apply memb_false in Em. cbn. constructor; [easy|apply H].
        -- intros e' q. unfold upd. destruct (Nat.eqb_spec e' e) as [->|Hx].
           ++ intros Hq. assert (Hq' : q = p \/ In q (ps_conc s e)).
              { unfold conc_add in Hq. destruct (memb _ _); [now right|]. destruct Hq as [<-|Hq]; [now left|now right]. }
              destruct Hq' as [->|Hq'].
              ** destruct (ci_mname _ _ H k p E) as [o [Eo Ho]]. exists o. split; [now apply nth_snoc_old|].
                 destruct Ho as [[-> Ho]|[-> Ho]]; [left|right]; now exists k.
              ** destruct (ci_name _ _ H e q Hq') as [o' [E' Hy]]. exists o'. split; [now apply nth_snoc_old|easy].
           ++ intros Hq. destruct (ci_name _ _ H e' q Hq) as [o' [E' Hy]]. exists o'. split; [now apply nth_snoc_old|easy].
        -- intros k' q Hq. destruct (ci_mname _ _ H k' q Hq) as [o' [E' Hy]]. exists o'. split; [now apply nth_snoc_old|easy].
      * apply Hsame; try easy; [|intros; now left]. intros e' k' t' n Hx Hy. injection Hx as <- <- <-.
        apply (pi_alive _ _ P) in Hy. destruct Hy as [nm Hy]. fold s in Hy. rewrite E in Hy. injection Hy as ->. now cbn in Hne.
    + apply Hsame; try easy; [|intros; now left]. intros e' k' t' n Hx Hy. injection Hx as <- <- <-.
      apply (alive_not_free _ _ _ _ Hy). now apply (pi_free _ _ P).
  - unfold pm_remove. destruct (pfind k (ps_map s)) as [p0|] eqn:E; apply Hsame; try easy; cbn [fst ps_map set_freed set_map]; [|now left].
    intros k' p. rewrite pfind_erase. destruct (Nat.eqb k' k); [discriminate|now left].
  - apply Hsame; try easy. now left.
  - apply Hsame; try easy. now left.
  - apply Hsame; easy.
  - constructor; cbn.
    + intros e' n. rewrite got_snoc. unfold upd. destruct (Nat.eqb_spec e' e) as [->|Hx].
      * cbn. split; [easy|]. intros [[_ Hy]|[k' [t' [Hy _]]]]; congruence.
      * rewrite (ci_got _ _ H). split; [intros Hy; left; split; [easy|congruence]|]. intros [[Hy _]|[k' [t' [Hy _]]]]; [easy|congruence].
    + intros e'. unfold upd. destruct (Nat.eqb e' e); [constructor|apply H].
    + intros e' p. unfold upd. destruct (Nat.eqb e' e); [easy|]. intros Hp.
      destruct (ci_name _ _ H e' p Hp) as [o' [E' Hx]]. exists o'. split; [now apply nth_snoc_old|easy].
    + intros k p Hp. destruct (ci_mname _ _ H k p Hp) as [o' [E' Hx]]. exists o'. split; [now apply nth_snoc_old|easy].
  - apply Hsame; try easy. now left.
  - apply Hsame; try easy. now left.
  - unfold e_add. destruct (ps_init s e); apply Hsame; try easy; now left.
  - apply Hsame; try easy. now left.
Qed.
Lemma cinv_all h : cinv h (p_after h).
Proof.
  induction h as [|o r IH] using rev_ind; [|now apply cinv_step]. constructor; cbn; try easy; [|constructor].
  intros e n. split; [easy|]. intros [a [k [t [b [E _]]]]]. now destruct a.
Qed.
