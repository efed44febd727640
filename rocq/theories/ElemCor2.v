(** First errors, normal ends, and histories. *)
From Verif Require Import ElemModel ElemSpec ElemProofs ElemCor.
From Coq Require Import Lia.
Local Open Scope nat_scope.
Local Open Scope list_scope.

Lemma aspects_fine k arg n l : aspect_calls k arg n l Fine ->
  map fst l = map (fun i => CAspect k i arg) (seq 0 n) /\ Forall ok_call l.
Proof.
  intros (j & _ & Hm & [(-> & _ & HF)|(l0 & e & -> & _ & He & Ho)]); [|easy]. split; [exact Hm|].
  pose proof (aspect_shape _ _ _ _ Hm) as Hs. rewrite Forall_forall in *. intros e He. specialize (HF e He).
  destruct (Hs e He) as (i & Hi). unfold ok_call. rewrite Hi. exact HF.
Qed.
Lemma fate_false_cases r : call_fate false r = Fine \/ (exists m, call_fate false r = Exn m) \/ call_fate false r = Alien.
Proof. unfold call_fate. destruct (r_exc r) as [[m|]|]; cbn; eauto. Qed.
Lemma fate_false_no_error r s : call_fate false r <> Error s.
Proof. destruct (fate_false_cases r) as [H|[[m H]|H]]; now rewrite H. Qed.

(** Fine body loops. *)
Lemma body_fine l : body_calls l st_default Fine ->
  Forall ok_call l /\ exists h, map fst l = concat (repeat [CBody; CHold] (S h)).
Proof.
  intro B. remember st_default as st eqn:Es. remember Fine as o eqn:Eo.
  induction B as [r H|r h H Hn|r h H Hn Hh|r h l st o H Hn Hh Hf B IH]; subst.
  - congruence.
  - exfalso. rewrite Es in Hn. cbn in Hn. unfold STATUS_OK in Hn. lia.
  - split; [|now exists 0]. constructor; [cbn; now apply call_fate_true_fine|]. constructor; [exact Eo|constructor].
  - destruct (IH eq_refl eq_refl) as (I1 & k & I2). split.
    + constructor; [cbn; now apply call_fate_true_fine|]. constructor; [exact Hh|exact I1].
    + exists (S k). cbn [map fst]. rewrite I2. reflexivity.
Qed.
(** A body loop that ends with an error status. *)
Lemma body_error l st : body_calls l st Fine -> (code st < 0)%Z ->
  exists pre r h, l = pre ++ [(CBody, r); (CHold, h)] /\ Forall ok_call pre /\ r_exc r = None /\ r_st r = st /\ ok_call (CHold, h).
Proof.
  intros B Hs. remember Fine as o eqn:Eo.
  induction B as [r H|r h H Hn|r h H Hn Hh|r h l st o H Hn Hh Hf B IH]; subst.
  - congruence.
  - exists [], r, h. repeat split; auto. now apply call_fate_fine_none in H.
  - cbn in Hs. unfold STATUS_OK in Hs. lia.
  - destruct (IH eq_refl Hs) as (pre & r0 & h0 & -> & P1 & P2 & P3 & P4).
    exists ((CBody, r) :: (CHold, h) :: pre), r0, h0. repeat split; auto.
    constructor; [cbn; now apply call_fate_true_fine|]. constructor; [exact Hh|exact P1].
Qed.
Lemma iteration_fine n l : iteration n l st_default Fine -> Forall ok_call l /\ exists h, CState :: map fst l = one_round n h.
Proof.
  intro I. remember st_default as st eqn:Es. remember Fine as o eqn:Eo. destruct I as [l0 o0 A Ho|lb lo s o0 A B Ho|lb lo s lf o0 A B F]; subst; try easy.
  apply aspects_fine in A. destruct A as [A1 A2]. apply body_fine in B. destruct B as [B1 (h & B2)].
  apply aspects_fine in F. destruct F as [F1 F2]. split.
  - apply Forall_app; split; [exact A2|]. apply Forall_app; split; assumption.
  - exists h. unfold one_round. now rewrite !map_app, A1, B2, F1.
Qed.
(** How [iterations] end, when no exception is involved. *)
Lemma iterations_normal n k l st : iterations n k l st Fine -> (0 <= code st)%Z ->
  st = st_default /\ Forall ok_call l /\ exists hs, List.length hs <= k /\
    ((List.length hs = k /\ map fst l = flat_map (one_round n) hs) \/
     (exists l0 r, l = l0 ++ [(CState, r)] /\ r_flag r = false /\ map fst l0 = flat_map (one_round n) hs)).
Proof.
  intros It Hs. remember Fine as o eqn:Eo.
  induction It as [|k r H|k r l1 l2 st o H I It IH|k r l st o H I S]; subst.
  - split; [easy|]. split; [constructor|]. exists []. split; [cbn; lia|]. left. now split.
  - split; [easy|]. split; [constructor; [exact Logic.I|constructor]|]. exists []. split; [cbn; lia|]. right. exists [], r. now split.
  - destruct (IH eq_refl Hs) as (-> & I1 & hs & I2 & I3). apply iteration_fine in I. destruct I as [F1 (h & F2)].
    split; [easy|]. split; [constructor; [exact Logic.I|]; apply Forall_app; now split|].
    exists (h :: hs). split; [cbn; lia|]. destruct I3 as [[E1 E2]|(l0 & r0 & -> & E1 & E2)].
    + left. split; [cbn; lia|]. cbn [map fst flat_map]. rewrite map_app, E2, <- F2. reflexivity.
    + right. exists ((CState, r) :: l1 ++ l0), r0. split; [cbn [app]; now rewrite <- app_assoc|]. split; [exact E1|].
      cbn [map fst flat_map]. rewrite map_app, E2, <- F2. reflexivity.
  - destruct S as [S|S]; [lia|easy].
Qed.
Lemma iteration_error_end n l st o : iteration n l st o -> (code st < 0)%Z -> o = Fine ->
  exists pre r post, l = pre ++ (CBody, r) :: post /\ Forall ok_call pre /\ r_exc r = None /\ r_st r = st /\
    map fst post = CHold :: map (fun i => CAspect AFinishRun i st) (seq 0 n) /\ Forall ok_call post.
Proof.
  intros I Hs Ho. destruct I as [l0 o0 A Ho'|lb lo s o0 A B Ho'|lb lo s lf o0 A B F]; subst; try easy.
  apply aspects_fine in A. destruct A as [A1 A2]. apply body_error in B; [|exact Hs].
  destruct B as (pre & r & h & -> & B1 & B2 & B3 & B4). apply aspects_fine in F. destruct F as [F1 F2].
  exists (lb ++ pre), r, ((CHold, h) :: lf). split; [now rewrite <- !app_assoc|].
  split; [apply Forall_app; now split|]. split; [exact B2|]. split; [exact B3|]. split; [cbn; now rewrite F1|]. now constructor.
Qed.
Lemma iterations_error n k l st : iterations n k l st Fine -> (code st < 0)%Z ->
  exists pre r post, l = pre ++ (CBody, r) :: post /\ Forall ok_call pre /\ r_exc r = None /\ r_st r = st /\
    map fst post = CHold :: map (fun i => CAspect AFinishRun i st) (seq 0 n) /\ Forall ok_call post.
Proof.
  intros It Hs. remember Fine as o eqn:Eo.
  induction It as [|k r H|k r l1 l2 st o H I It IH|k r l st o H I S]; subst.
  - cbn in Hs. unfold STATUS_OK in Hs. lia.
  - cbn in Hs. unfold STATUS_OK in Hs. lia.
  - destruct (IH eq_refl Hs) as (pre & r0 & post & -> & P1 & P). apply iteration_fine in I. destruct I as [F1 _].
    exists (((CState, r) :: l1) ++ pre), r0, post. split; [cbn [app]; now rewrite <- app_assoc|]. split; [|exact P].
    apply Forall_app; split; [|exact P1]. constructor; [exact Logic.I|exact F1].
  - destruct (iteration_error_end _ _ _ _ I Hs eq_refl) as (pre & r0 & post & -> & P1 & P).
    exists ((CState, r) :: pre), r0, post. split; [easy|]. split; [|exact P]. now constructor.
Qed.
Lemma aspect_error k arg n l s : aspect_calls k arg n l (Error s) ->
  exists pre i r, l = pre ++ [(CAspect k i arg, r)] /\ Forall ok_call pre /\ r_exc r = None /\ r_st r = s /\ is_begin k = true.
Proof.
  intros (j & _ & Hm & [(_ & H & _)|(l0 & e & -> & HF & He & _)]); [easy|].
  pose proof (aspect_shape _ _ _ _ Hm) as Hs. apply Forall_app in Hs. destruct Hs as [Hs1 Hs2]. apply Forall_inv in Hs2.
  destruct Hs2 as (i & Hi). destruct e as [c r]. cbn in *. subst c. exists l0, i, r. split; [easy|]. split.
  - rewrite Forall_forall in *. intros e' He'. specialize (HF e' He'). destruct (Hs1 e' He') as (i' & Hi'). unfold ok_call. now rewrite Hi'.
  - pose proof (fate_cases (is_begin k) r) as F. rewrite He in F. destruct F as (F1 & F2 & -> & _). auto.
Qed.
Lemma iterations_begin_error n k l st s : iterations n k l st (Error s) ->
  exists pre i r, l = pre ++ [(CAspect ABeginRun i st_default, r)] /\ Forall ok_call pre /\ r_exc r = None /\ r_st r = s.
Proof.
  intro It. remember (Error s) as o eqn:Eo.
  induction It as [|k r H|k r l1 l2 st o H I It IH|k r l st o H I S]; subst; try easy.
  - destruct (IH eq_refl) as (pre & i & r0 & -> & P1 & P). apply iteration_fine in I. destruct I as [F1 _].
    exists (((CState, r) :: l1) ++ pre), i, r0. split; [cbn [app]; now rewrite <- app_assoc|]. split; [|exact P].
    apply Forall_app; split; [|exact P1]. constructor; [exact Logic.I|exact F1].
  - assert (E : exists pre i r0, l = pre ++ [(CAspect ABeginRun i st_default, r0)] /\ Forall ok_call pre /\ r_exc r0 = None /\ r_st r0 = s).
    { remember (Error s) as o eqn:Eo. destruct I as [l0 o0 A Ho|lb lo s0 o0 A B Ho|lb lo s0 lf o0 A B F]; subst.
      - apply aspect_error in A. destruct A as (pre & i & r0 & A1 & A2 & A3 & A4 & _). exists pre, i, r0. auto.
      - exfalso. clear -B. remember (Error s) as o eqn:Eo. induction B; subst; auto; now apply fate_false_no_error in Eo.
      - now apply finish_not_error in F. }
    destruct E as (pre & i & r0 & -> & P1 & P). exists ((CState, r) :: pre), i, r0. split; [easy|]. split; [|exact P].
    now constructor.
Qed.
Lemma check_done st l v : check_calls st l (Done v) -> v = st /\ exists r, l = [(CCheck, r)] /\ ok_call (CCheck, r).
Proof.
  intro C. remember (Done v) as d eqn:Ed. destruct C as [r H|r H Hn|r r2 H Hn].
  - destruct (fate_false_cases r) as [E|[[m E]|E]]; rewrite E in *; easy.
  - inversion Ed; subst. split; [easy|]. exists r. split; [easy|]. cbn. now apply call_fate_true_fine.
  - destruct (fate_false_cases r2) as [E|[[m E]|E]]; rewrite E in *; easy.
Qed.
Lemma prep_ok (prepared : bool) lp :
  (prepared = true /\ lp = [] \/ prepared = false /\ exists r, lp = [(CPrepare, r)] /\ call_fate true r = Fine /\ code (r_st r) = 0%Z) ->
  Forall ok_call lp /\ map fst lp = if prepared then [] else [CPrepare].
Proof.
  intros [[-> ->]|[-> (r & -> & H & _)]]; [now split|]. split; [|reflexivity]. now constructor.
Qed.

(** First error of a run that ends with a status. *)
Lemma run_first_error p n loop l p' v : run_calls p n loop l p' (Done v) -> (code v < 0)%Z ->
  exists pre c r post, l = pre ++ (c, r) :: post /\ Forall ok_call pre /\ r_exc r = None /\ r_st r = v /\
   ((c = CPrepare \/ exists i, c = CAspect ABeginRun i st_default) /\ post = [] \/
    c = CBody /\ map fst post = CHold :: map (fun i => CAspect AFinishRun i v) (seq 0 n) ++ [CCheck] /\ Forall ok_call post).
Proof.
  intros R Hv. remember (Done v) as d eqn:Ed. destruct R as [r Hp H|r lc d' Hp H Hn C|lp l0 st o Hp I Ho|lp l0 st lc d' Hp I C].
  - pose proof (fate_cases true r) as F. destruct (call_fate true r) as [|s|m|]; try easy. cbn in Ed. inversion Ed; subst s.
    destruct F as (F1 & _ & F2 & _). exists [], CPrepare, r, []. repeat split; auto.
  - subst d'. apply check_done in C. destruct C as [-> _]. lia.
  - destruct o as [|s|m|]; try easy. cbn in Ed. inversion Ed; subst s.
    apply iterations_begin_error in I. destruct I as (pre & i & r & -> & I1 & I2 & I3).
    apply prep_ok in Hp. destruct Hp as [P1 _]. exists (lp ++ pre), (CAspect ABeginRun i st_default), r, [].
    split; [now rewrite <- app_assoc|]. split; [apply Forall_app; now split|]. split; [easy|]. split; [easy|]. left. split; [|easy]. right. now exists i.
  - subst d'. apply check_done in C. destruct C as [-> (rc & -> & Hc)].
    destruct (iterations_error _ _ _ _ I Hv) as (pre & r & post & -> & I1 & I2 & I3 & I4 & I5).
    apply prep_ok in Hp. destruct Hp as [P1 _]. exists (lp ++ pre), CBody, r, (post ++ [(CCheck, rc)]).
    split; [now rewrite <- !app_assoc|]. split; [apply Forall_app; now split|]. split; [easy|]. split; [easy|]. right. split; [easy|].
    split; [now rewrite map_app, I4|]. apply Forall_app; split; [exact I5|]. now constructor.
Qed.
Lemma run_no_error p n loop l p' v : run_calls p n loop l p' (Done v) -> (0 <= code v)%Z ->
  p' = true /\ Forall ok_call l /\
  ((v = st_default /\ exists hs tail, List.length hs <= loop /\
      map fst l = (if p then [] else [CPrepare]) ++ flat_map (one_round n) hs ++ tail ++ [CCheck] /\
      (List.length hs = loop /\ tail = [] \/ tail = [CState] /\ exists r, In (CState, r) l /\ r_flag r = false)) \/
   (exists r r', l = [(CPrepare, r); (CCheck, r')] /\ r_st r = v /\ (0 < code v)%Z)).
Proof.
  intros R Hv. remember (Done v) as d eqn:Ed. destruct R as [r Hp H|r lc d' Hp H Hn C|lp l0 st o Hp I Ho|lp l0 st lc d' Hp I C].
  - pose proof (fate_cases true r) as F. destruct (call_fate true r) as [|s|m|]; try easy. cbn in Ed. inversion Ed; subst s.
    destruct F as (_ & _ & _ & F & _). lia.
  - subst d'. apply check_done in C. destruct C as [-> (rc & -> & Hc)]. split; [easy|]. split; [constructor; [exact H|now constructor]|].
    right. exists r, rc. repeat split; auto.
  - exfalso. destruct o as [|s|m|]; try easy. cbn in Ed. inversion Ed; subst s.
    assert (E : (code v < 0)%Z); [|lia]. clear -I. remember (Error v) as o eqn:Eo. induction I; subst; try easy; auto.
    remember (Error v) as o eqn:Eo. destruct H0 as [l0 o0 A Ho|lb lo s0 o0 A B Ho|lb lo s0 lf o0 A B F]; subst.
    + destruct A as (j & _ & _ & [(_ & E & _)|(l1 & e & _ & _ & He & _)]); [easy|].
      pose proof (fate_cases (is_begin ABeginRun) (snd e)) as F. rewrite He in F. apply F.
    + exfalso. clear -B. remember (Error v) as o eqn:Eo. induction B; subst; auto; now apply fate_false_no_error in Eo.
    + now apply finish_not_error in F.
  - subst d'. apply check_done in C. destruct C as [-> (rc & -> & Hc)].
    destruct (iterations_normal _ _ _ _ I Hv) as (-> & I1 & hs & I2 & I3). apply prep_ok in Hp. destruct Hp as [P1 P2].
    split; [easy|]. split; [apply Forall_app; split; [exact P1|]; apply Forall_app; split; [exact I1|now constructor]|].
    left. split; [easy|]. exists hs. destruct I3 as [[E1 E2]|(l1 & r & -> & E1 & E2)].
    + exists []. split; [exact I2|]. split; [|now left]. now rewrite !map_app, P2, E2.
    + exists [CState]. split; [exact I2|]. split.
      * rewrite !map_app, P2, E2. now rewrite <- app_assoc.
      * right. split; [easy|]. exists r. split; [|exact E1]. rewrite !in_app_iff. cbn. auto.
Qed.

(** * prepareRun in histories *)
Definition is_prep_ok (e : cb * resp) : Prop := fst e = CPrepare /\ call_fate true (snd e) = Fine.
Definition no_init (l : log) : Prop := forall e, In e l -> fst e <> CMark FInit.
(** prepareRun has succeeded since the last init. *)
Definition prepared_since (l : log) : Prop := exists a e b, l = a ++ e :: b /\ is_prep_ok e /\ no_init b.
Definition J (l : log) (p : bool) : Prop :=
  (p = true <-> prepared_since l) /\
  (forall a r b, l = a ++ (CBody, r) :: b -> prepared_since a) /\
  (forall a r b, l = a ++ (CPrepare, r) :: b -> ~ prepared_since a).

(** Small changes of the log. *)
Definition boring (e : cb * resp) : Prop := fst e <> CMark FInit /\ fst e <> CPrepare.
Lemma prepared_snoc_boring l e : boring e -> (prepared_since (l ++ [e]) <-> prepared_since l).
Proof.
  intros [Hb1 Hb2]. split.
  - intros (a & x & b & E & Hx & Hn). destruct (exists_last (l := x :: b)) as (b' & z & Ez); [easy|].
    rewrite Ez, app_assoc in E. apply app_inj_tail in E. destruct E as [-> ->].
    destruct b' as [|y b'].
    + inversion Ez; subst. destruct Hx as [Hx _]. now destruct Hb2.
    + inversion Ez; subst. exists a, y, b'. split; [easy|]. split; [exact Hx|]. intros w Hw. apply Hn. rewrite in_app_iff. now left.
  - intros (a & x & b & -> & Hx & Hn). exists a, x, (b ++ [e]). split; [now rewrite <- app_assoc|]. split; [exact Hx|].
    intros w Hw. rewrite in_app_iff in Hw. destruct Hw as [Hw|[<-|[]]]; [now apply Hn|exact Hb1].
Qed.
Lemma snoc_split {A} (l : list A) e a x b : l ++ [e] = a ++ x :: b -> (b = [] /\ l = a /\ e = x) \/ (exists b', b = b' ++ [e] /\ l = a ++ x :: b').
Proof.
  intro E. destruct (exists_last (l := x :: b)) as (b' & z & Ez); [easy|].
  rewrite Ez, app_assoc in E. apply app_inj_tail in E. destruct E as [-> ->].
  destruct b' as [|y b']; inversion Ez; subst; [left; rewrite app_nil_r; auto|right; now exists b'].
Qed.
Lemma J_snoc_boring l p e : J l p -> boring e -> (fst e = CBody -> p = true) -> J (l ++ [e]) p.
Proof.
  intros (J1 & J2 & J3) Hb He. split; [rewrite prepared_snoc_boring by exact Hb; exact J1|]. split.
  - intros a r b E. apply snoc_split in E. destruct E as [(-> & -> & ->)|(b' & -> & ->)].
    + apply J1. now apply He.
    + now apply (J2 a r b').
  - intros a r b E. apply snoc_split in E. destruct E as [(-> & -> & ->)|(b' & -> & ->)].
    + exfalso. now destruct Hb.
    + now apply (J3 a r b').
Qed.
Lemma J_app_boring d : forall l p, J l p -> Forall boring d -> (forall e, In e d -> fst e = CBody -> p = true) -> J (l ++ d) p.
Proof.
  induction d as [|e d IH]; intros l p HJ HB HP; [now rewrite app_nil_r|].
  replace (l ++ e :: d) with ((l ++ [e]) ++ d) by now rewrite <- app_assoc.
  inversion HB; subst. apply IH; [|assumption|intros x Hx; apply HP; now right].
  apply J_snoc_boring; [exact HJ|assumption|]. intro Hc. apply (HP e); [now left|exact Hc].
Qed.
Lemma J_prepare l r : J l false -> J (l ++ [(CPrepare, r)]) (match call_fate true r with Fine => true | _ => false end).
Proof.
  intros (J1 & J2 & J3). split; [|split].
  - destruct (call_fate true r) eqn:Er; (split; [|try easy]).
    + intros _. exists l, (CPrepare, r), []. split; [easy|]. split; [now split|]. intros e [].
    + easy.
    + intros (a & x & b & E & Hx & Hn). apply snoc_split in E. destruct E as [(-> & -> & <-)|(b' & -> & ->)].
      * destruct Hx as [_ Hx]. cbn in Hx. congruence.
      * assert (X : false = true); [|easy]. apply J1. exists a, x, b'. split; [easy|]. split; [exact Hx|]. intros w Hw. apply Hn. rewrite in_app_iff. now left.
    + easy.
    + intros (a & x & b & E & Hx & Hn). apply snoc_split in E. destruct E as [(-> & -> & <-)|(b' & -> & ->)].
      * destruct Hx as [_ Hx]. cbn in Hx. congruence.
      * assert (X : false = true); [|easy]. apply J1. exists a, x, b'. split; [easy|]. split; [exact Hx|]. intros w Hw. apply Hn. rewrite in_app_iff. now left.
    + easy.
    + intros (a & x & b & E & Hx & Hn). apply snoc_split in E. destruct E as [(-> & -> & <-)|(b' & -> & ->)].
      * destruct Hx as [_ Hx]. cbn in Hx. congruence.
      * assert (X : false = true); [|easy]. apply J1. exists a, x, b'. split; [easy|]. split; [exact Hx|]. intros w Hw. apply Hn. rewrite in_app_iff. now left.
  - intros a r0 b E. apply snoc_split in E. destruct E as [(-> & -> & E)|(b' & -> & ->)]; [easy|]. now apply (J2 a r0 b').
  - intros a r0 b E. apply snoc_split in E. destruct E as [(-> & -> & E)|(b' & -> & ->)]; [|now apply (J3 a r0 b')].
    intro P. apply J1 in P. easy.
Qed.
Lemma J_init l p r : J l p -> J (l ++ [(CMark FInit, r)]) false.
Proof.
  intros (J1 & J2 & J3). split; [|split].
  - split; [easy|]. intros (a & x & b & E & Hx & Hn). apply snoc_split in E. destruct E as [(-> & -> & <-)|(b' & -> & ->)].
    + now destruct Hx as [Hx _].
    + exfalso. apply (Hn (CMark FInit, r)); [rewrite in_app_iff; right; now left|reflexivity].
  - intros a r0 b E. apply snoc_split in E. destruct E as [(-> & -> & E)|(b' & -> & ->)]; [easy|]. now apply (J2 a r0 b').
  - intros a r0 b E. apply snoc_split in E. destruct E as [(-> & -> & E)|(b' & -> & ->)]; [easy|]. now apply (J3 a r0 b').
Qed.

(** Directly on the model (also for runs that do not end): everything but prepareRun and entering init is boring. *)
Section Grow.
Variable ask : oracle.
Definition grows (l l' : log) : Prop := exists d, l' = l ++ d /\ Forall boring d.
Lemma grows_refl l : grows l l.
Proof. exists []. now rewrite app_nil_r. Qed.
Lemma grows_trans a b c : grows a b -> grows b c -> grows a c.
Proof.
  intros (d & -> & D) (e & -> & E). exists (d ++ e). split; [now rewrite app_assoc|]. apply Forall_app; now split.
Qed.
Lemma grows_one l c r : c <> CPrepare -> c <> CMark FInit -> grows l (l ++ [(c, r)]).
Proof. intros H1 H2. exists [(c, r)]. split; [easy|]. constructor; [now split|constructor]. Qed.
Lemma call_grows c l : c <> CPrepare -> c <> CMark FInit -> grows l (fst (call ask c l)).
Proof. intros H1 H2. unfold call. cbn. now apply grows_one. Qed.
Lemma reflect_grows k arg n : forall i st l, grows l (fst (reflect ask k arg i n st l)).
Proof.
  induction n as [|n IH]; intros i st l; [apply grows_refl|]. cbn [reflect].
  pose proof (call_grows (CAspect k i arg) l ltac:(easy) ltac:(easy)) as G.
  destruct (call ask (CAspect k i arg) l) as [l1 o]. cbn [fst] in G. destruct o; try exact G.
  destruct (check_status (if is_begin k then st_assign st (r_st a) else st)); try exact G.
  apply (grows_trans l l1); [exact G|]. apply IH.
Qed.
Lemma do_aspect_grows k arg n l : grows l (fst (do_aspect ask k arg n l)).
Proof.
  unfold do_aspect. destruct (Nat.eqb n 0); [apply grows_refl|]. pose proof (reflect_grows k arg n 0 st_default l) as G.
  destruct (reflect ask k arg 0 n st_default l) as [l1 o]. destruct o; exact G.
Qed.
Lemma hold_grows fuel : forall st l, grows l (fst (hold_loop ask fuel st l)).
Proof.
  induction fuel as [|f IH]; intros st l; [apply grows_refl|]. cbn [hold_loop].
  pose proof (call_grows CBody l ltac:(easy) ltac:(easy)) as G. destruct (call ask CBody l) as [l1 o]. cbn [fst] in G. destruct o; try exact G.
  pose proof (call_grows CHold l1 ltac:(easy) ltac:(easy)) as G2. destruct (call ask CHold l1) as [l2 o2]. cbn [fst] in G2.
  pose proof (grows_trans _ _ _ G G2) as G3. destruct o2; try exact G3.
  destruct (r_flag a0 && isOK (st_plus st (r_st a))); [|exact G3]. apply (grows_trans l l2); [exact G3|apply IH].
Qed.
Lemma run_loop_grows n fuel k : forall st l, grows l (fst (run_loop ask n fuel k st l)).
Proof.
  induction k as [|k IH]; intros st l; [apply grows_refl|]. cbn [run_loop]. destruct (negb (isOK st)); [apply grows_refl|].
  pose proof (grows_one l CState (ask l CState) ltac:(easy) ltac:(easy)) as G0.
  destruct (negb (r_flag (ask l CState))); [exact G0|]. set (l0 := l ++ [(CState, ask l CState)]) in *.
  pose proof (do_aspect_grows ABeginRun st_default n l0) as G1. destruct (do_aspect ask ABeginRun st_default n l0) as [l1 b]. cbn [fst] in G1.
  pose proof (grows_trans _ _ _ G0 G1) as G2.
  destruct (lift st b (fun v => check (st_plus st v))) as [st1|st1|st1 m| |]; try exact G2.
  pose proof (hold_grows fuel st1 l1) as G3. destruct (hold_loop ask fuel st1 l1) as [l2 c]. cbn [fst] in G3.
  pose proof (grows_trans _ _ _ G2 G3) as G4. destruct c as [st2|st2|st2 m| |]; try exact G4.
  pose proof (do_aspect_grows AFinishRun st2 n l2) as G5. destruct (do_aspect ask AFinishRun st2 n l2) as [l3 e]. cbn [fst] in G5.
  pose proof (grows_trans _ _ _ G4 G5) as G6.
  destruct (lift st2 e (fun _ => Go st2)) as [st3|st3|st3 m| |]; try exact G6.
  apply (grows_trans l l3); [exact G6|apply IH].
Qed.
Lemma check_grows st l : grows l (fst (check_run_result ask st l)).
Proof.
  unfold check_run_result. pose proof (call_grows CCheck l ltac:(easy) ltac:(easy)) as G. destruct (call ask CCheck l) as [l1 o]. cbn [fst] in G.
  destruct o; try exact G. destruct (isErr (r_st a)); [|exact G].
  pose proof (call_grows CCheck l1 ltac:(easy) ltac:(easy)) as G2. destruct (call ask CCheck l1) as [l2 o2]. cbn [fst] in G2.
  pose proof (grows_trans _ _ _ G G2) as G3. destruct o2; exact G3.
Qed.
Lemma simple_grows kb kf c n l : c <> CPrepare -> c <> CMark FInit -> grows l (fst (try_simple ask kb kf c n l)).
Proof.
  intros H1 H2. unfold try_simple. pose proof (do_aspect_grows kb st_default n l) as G. destruct (do_aspect ask kb st_default n l) as [l1 b]. cbn [fst] in G.
  destruct (lift st_default b (fun v => check (st_assign st_default v))) as [st|st|st m| |]; try exact G.
  pose proof (call_grows c l1 H1 H2) as G2. destruct (call ask c l1) as [l2 o]. cbn [fst] in G2.
  pose proof (grows_trans _ _ _ G G2) as G3. destruct o; try exact G3.
  pose proof (do_aspect_grows kf (st_assign st (r_st a)) n l2) as G4. destruct (do_aspect ask kf (st_assign st (r_st a)) n l2) as [l3 e]. cbn [fst] in *.
  now apply (grows_trans l l2).
Qed.
Lemma J_grows l l' : J l true -> grows l l' -> J l' true.
Proof. intros HJ (d & -> & D). apply J_app_boring; auto. Qed.
(** without a body: any flag *)
Definition nobody (l l' : log) : Prop := exists d, l' = l ++ d /\ Forall boring d /\ forall e, In e d -> fst e <> CBody.
Lemma J_nobody l l' p : J l p -> nobody l l' -> J l' p.
Proof. intros HJ (d & -> & D & N). apply J_app_boring; auto. intros e He Hc. now destruct (N e He). Qed.
Lemma nobody_refl l : nobody l l.
Proof. exists []. rewrite app_nil_r. repeat split; auto. Qed.
Lemma nobody_trans a b c : nobody a b -> nobody b c -> nobody a c.
Proof.
  intros (d & -> & D & D2) (e & -> & E & E2). exists (d ++ e). split; [now rewrite app_assoc|]. split; [apply Forall_app; now split|].
  intros x Hx. rewrite in_app_iff in Hx. destruct Hx; auto.
Qed.
Lemma call_nobody c l : c <> CPrepare -> c <> CMark FInit -> c <> CBody -> nobody l (fst (call ask c l)).
Proof. intros H1 H2 H3. exists [(c, ask l c)]. split; [easy|]. split; [constructor; [now split|constructor]|]. intros e [<-|[]]. exact H3. Qed.
Lemma reflect_nobody k arg n : forall i st l, nobody l (fst (reflect ask k arg i n st l)).
Proof.
  induction n as [|n IH]; intros i st l; [apply nobody_refl|]. cbn [reflect].
  pose proof (call_nobody (CAspect k i arg) l ltac:(easy) ltac:(easy) ltac:(easy)) as G.
  destruct (call ask (CAspect k i arg) l) as [l1 o]. cbn [fst] in G. destruct o; try exact G.
  destruct (check_status (if is_begin k then st_assign st (r_st a) else st)); try exact G.
  apply (nobody_trans l l1); [exact G|]. apply IH.
Qed.
Lemma do_aspect_nobody k arg n l : nobody l (fst (do_aspect ask k arg n l)).
Proof.
  unfold do_aspect. destruct (Nat.eqb n 0); [apply nobody_refl|]. pose proof (reflect_nobody k arg n 0 st_default l) as G.
  destruct (reflect ask k arg 0 n st_default l) as [l1 o]. destruct o; exact G.
Qed.
Lemma simple_nobody kb kf c n l : c <> CPrepare -> c <> CMark FInit -> c <> CBody -> nobody l (fst (try_simple ask kb kf c n l)).
Proof.
  intros H1 H2 H3. unfold try_simple. pose proof (do_aspect_nobody kb st_default n l) as G. destruct (do_aspect ask kb st_default n l) as [l1 b]. cbn [fst] in G.
  destruct (lift st_default b (fun v => check (st_assign st_default v))) as [st|st|st m| |]; try exact G.
  pose proof (call_nobody c l1 H1 H2 H3) as G2. destruct (call ask c l1) as [l2 o]. cbn [fst] in G2.
  pose proof (nobody_trans _ _ _ G G2) as G3. destruct o; try exact G3.
  pose proof (do_aspect_nobody kf (st_assign st (r_st a)) n l2) as G4. destruct (do_aspect ask kf (st_assign st (r_st a)) n l2) as [l3 e]. cbn [fst] in *.
  now apply (nobody_trans l l2).
Qed.
Lemma J_mark l p f : J l p -> J (l ++ [(CMark f, r_none)]) (match f with FInit => false | _ => p end).
Proof.
  intro HJ. destruct f.
  - now apply (J_init l p).
  - apply J_snoc_boring; [exact HJ|now split|easy].
  - apply J_snoc_boring; [exact HJ|now split|easy].
Qed.
Lemma J_try_run n loop fuel p l : J l p -> let t := try_run ask n loop fuel p l in J (fst (fst t)) (snd (fst t)).
Proof.
  intros HJ. cbn zeta. unfold try_run.
  assert (REST : forall st l1, J l1 true -> let t := (match run_loop ask n fuel loop st l1 with
       | (l2, Go st2) => let '(l3, c) := check_run_result ask st2 l2 in (l3, true, c)
       | (l2, c) => (l2, true, c) end) in J (fst (fst t)) (snd (fst t))).
  { intros st l1 J1. cbn zeta. pose proof (run_loop_grows n fuel loop st l1) as G. destruct (run_loop ask n fuel loop st l1) as [l2 c]. cbn [fst] in G.
    assert (J2 : J l2 true) by now apply (J_grows l1).
    destruct c as [st2|st2|st2 m| |]; try exact J2. pose proof (check_grows st2 l2) as G2. destruct (check_run_result ask st2 l2) as [l3 c3]. cbn [fst snd] in *.
    now apply (J_grows l2). }
  destruct p; [now apply REST|]. pose proof (J_prepare l (ask l CPrepare) HJ) as JP.
  destruct (call ask CPrepare l) as [l1 o] eqn:Ec. apply call_spec in Ec. destruct Ec as [[-> _] F].
  set (x := ask l CPrepare) in *. destruct o as [v|m| |]; cbn in F; [destruct F as [-> F]| | |easy].
  - unfold check. destruct (Z_lt_ge_dec (code (r_st x)) 0) as [Hn|Hn].
    + rewrite assign_err by zl. rewrite check_status_err by exact Hn. rewrite (call_fate_true_err x F Hn) in JP.
      destruct (code (r_st x) =? -996)%Z; exact JP.
    + rewrite check_status_ok by (rewrite assign_code; lia). rewrite (call_fate_true_fine x F) in JP by lia. now apply REST.
  - now rewrite (call_fate_exn true _ _ F) in JP.
  - now rewrite (call_fate_alien true _ F) in JP.
Qed.
Lemma J_fat vis n loop fuel f s : J (fst s) (snd s) -> let t := fst (fat ask vis n loop fuel f s) in J (fst t) (snd t).
Proof.
  intro HJ. cbn zeta. destruct s as [l p]. cbn [fst snd] in HJ. unfold fat. destruct vis; cbn [negb]; [|exact HJ]. cbn [fst snd].
  apply (J_mark l p f) in HJ. set (l0 := l ++ [(CMark f, r_none)]) in *.
  assert (T : let t := match f with
      | FInit => let '(l1, c) := try_simple ask ABeginInit AFinishInit CInit n l0 in (l1, false, c)
      | FRun => try_run ask n loop fuel p l0
      | FDestroy => let '(l1, c) := try_simple ask ABeginDestroy AFinishDestroy CDestroy n l0 in (l1, p, c)
      end in J (fst (fst t)) (snd (fst t))).
  { cbn zeta. destruct f.
    - pose proof (simple_nobody ABeginInit AFinishInit CInit n l0 ltac:(easy) ltac:(easy) ltac:(easy)) as G.
      destruct (try_simple ask ABeginInit AFinishInit CInit n l0) as [l1 c]. cbn [fst snd] in *. now apply (J_nobody l0).
    - now apply J_try_run.
    - pose proof (simple_nobody ABeginDestroy AFinishDestroy CDestroy n l0 ltac:(easy) ltac:(easy) ltac:(easy)) as G.
      destruct (try_simple ask ABeginDestroy AFinishDestroy CDestroy n l0) as [l1 c]. cbn [fst snd] in *. now apply (J_nobody l0). }
  match goal with |- context [match f with FInit => ?a | FRun => ?b | FDestroy => ?c end] =>
    destruct (match f with FInit => a | FRun => b | FDestroy => c end) as [[l1 p1] c0] end.
  cbn [fst snd] in T. destruct c0 as [st|st|st m| |]; try exact T.
  pose proof (do_aspect_nobody AEnterCrashed st_default n l1) as G. destruct (do_aspect ask AEnterCrashed st_default n l1) as [l2 e].
  cbn [fst] in G. apply (J_nobody _ _ _ T) in G. destruct e; exact G.
Qed.
Lemma J_history fuel h : forall s, J (fst s) (snd s) -> let t := fst (fat_history ask fuel h s) in J (fst t) (snd t).
Proof.
  induction h as [|c h IH]; intros s HJ; [exact HJ|]. cbn zeta. cbn [fat_history].
  pose proof (J_fat (f_vis c) (f_aspects c) (f_loop c) fuel (f_fn c) s HJ) as G. cbn zeta in G.
  destruct (fat ask (f_vis c) (f_aspects c) (f_loop c) fuel (f_fn c) s) as [s1 o]. cbn [fst] in G.
  specialize (IH s1 G). destruct (fat_history ask fuel h s1) as [s2 os]. destruct o; exact IH || exact G.
Qed.
End Grow.
