(** Invariant, progress and termination of the ALL_PARALLEL path. *)
From Verif Require Import GraphModel GraphSpec TopoProofs StaticModel StaticProofs StatusProofs DynModel DynInv DynProofs DynTerm FastModel.
From Coq Require Import Lia.
Local Open Scope nat_scope.
Arguments cnt : simpl never.

Definition w_tok (e : nat) (o : pop) : nat := match o with PTest x | PStart x => b2n (Nat.eqb x e) | _ => 0 end.
Definition w_body (e : nat) (o : pop) : nat := match o with PBody x => b2n (Nat.eqb x e) | _ => 0 end.
Definition w_cnt (o : pop) : nat := match o with PErr _ _ | PCount _ => 1 | PBody _ => 0 | _ => 0 end.
Definition w_perr (o : pop) : nat := match o with PErr _ _ => 1 | _ => 0 end.
Definition wf_pop (L : list nat) (tr : list gevent) (o : pop) : Prop :=
  match o with
  | PTest e | PStart e | PBody e => In e L
  | PErr e r => (code r < 0)%Z /\ In (GFinish e r) tr
  | _ => True
  end.

Section Par.
Variable c : pcfg.
Let L := p_els c.
Let N := length L.
Hypothesis HL : NoDup L.
Hypothesis Hrows : concat (p_rows c) = L.

Record PI (num : nat) (st : status) (tr : list gevent) (B : list pop) : Prop := {
  q_once : forall e, cnt e (starts tr) + sumf (w_tok e) B <= 1;
  q_body : forall e, cnt e (starts tr) = cnt e (map fst (finishes tr)) + sumf (w_body e) B;
  q_num : num + sumf w_cnt B = length (finishes tr);
  q_wf : forall o, In o B -> wf_pop L tr o;
  q_started : forall e, In e (starts tr) -> In e L;
  q_stat : st = st_default \/ (isErr st = true /\ exists e, In (GFinish e st) tr);
  q_rec : noerr tr \/ isErr st = true \/ 0 < sumf w_perr B;
  q_all : isErr st = false -> forall e, In e L -> cnt e (starts tr) + sumf (w_tok e) B = 1
}.

Lemma PI_perm num st tr B B' : Permutation B B' -> PI num st tr B -> PI num st tr B'.
Proof.
  intros P R. assert (S : forall f, sumf f B' = sumf f B) by (intros f; apply sumf_perm; symmetry; exact P).
  destruct R. constructor; try assumption.
  - intros e. rewrite S. auto.
  - intros e. rewrite S. auto.
  - rewrite S. auto.
  - intros o Ho. apply q_wf0. eapply Permutation_in; [symmetry; exact P|exact Ho].
  - rewrite S. assumption.
  - intros H e He. rewrite S. auto.
Qed.

Definition opt2l {A} (o : option A) : list A := match o with Some x => [x] | None => [] end.
Lemma wf_pop_mono tr ev o : wf_pop L tr o -> wf_pop L (tr ++ [ev]) o.
Proof. destruct o; simpl; auto. intros [H1 H2]. split; [exact H1|apply in_or_app; auto]. Qed.

Lemma PI_op num st tr o r B num' st' tr' next nt :
  pop_sem c num st tr o r = (num', st', tr', next, nt) -> PI num st tr (o :: B) -> PI num' st' tr' (opt2l next ++ B).
Proof.
  intros H R. pose proof (q_wf _ _ _ _ R o (or_introl eq_refl)) as Wo.
  destruct o as [e|e|e|e r0|e|n|]; cbn [pop_sem] in H.
  - destruct (isErr st) eqn:E; inversion H; subst; clear H; cbn [opt2l app].
    + destruct R. cbn [sumf w_tok w_body w_cnt w_perr] in *. constructor; try assumption.
      * intros x. specialize (q_once0 x). lia.
      * intros o Ho. apply q_wf0; right; exact Ho.
      * intros X. congruence.
    + destruct R. cbn [sumf w_tok w_body w_cnt w_perr] in *. constructor; cbn [sumf w_tok w_body w_cnt w_perr]; try assumption.
      intros o [<-|Ho]; [exact Wo|]. apply q_wf0; right; exact Ho.
  - inversion H; subst; clear H; cbn [opt2l app]. destruct R. cbn [sumf w_tok w_body w_cnt w_perr] in *. constructor; cbn [sumf w_tok w_body w_cnt w_perr].
    + intros x. rewrite cnt_starts_st. specialize (q_once0 x). lia.
    + intros x. rewrite cnt_starts_st, finishes_st. specialize (q_body0 x). lia.
    + rewrite finishes_st. exact q_num0.
    + intros o [<-|Ho]; [exact Wo|]. apply wf_pop_mono, q_wf0; right; exact Ho.
    + intros x Hx. rewrite starts_app in Hx. apply in_app_or in Hx. destruct Hx as [Hx|[<-|[]]]; [auto|exact Wo].
    + destruct q_stat0 as [X|[X [x Hx]]]; [left; exact X|]. right. split; [exact X|]. exists x. apply in_or_app; auto.
    + rewrite noerr_start. exact q_rec0.
    + intros X x Hx. rewrite cnt_starts_st. specialize (q_all0 X x Hx). lia.
  - inversion H; subst; clear H; cbn [opt2l app]. destruct R. cbn [sumf w_tok w_body w_cnt w_perr] in *.
    assert (Hw : forall y, w_tok y (if isErr r then PErr e r else PCount e) = 0 /\ w_body y (if isErr r then PErr e r else PCount e) = 0) by (intros y; destruct (isErr r); split; reflexivity).
    assert (Hc : w_cnt (if isErr r then PErr e r else PCount e) = 1) by (destruct (isErr r); reflexivity).
    constructor; cbn [sumf].
    + intros x. rewrite starts_fin. destruct (Hw x) as [-> _]. specialize (q_once0 x). lia.
    + intros x. rewrite starts_fin, cnt_finishes_fin. destruct (Hw x) as [_ ->]. specialize (q_body0 x). lia.
    + rewrite finishes_app, app_length, Hc. simpl. lia.
    + intros o [<-|Ho]; [|apply wf_pop_mono, q_wf0; right; exact Ho].
      destruct (isErr r) eqn:E; [|exact I]. split; [apply isErr_code; exact E|apply in_or_app; right; left; reflexivity].
    + intros x Hx. rewrite starts_fin in Hx. auto.
    + destruct q_stat0 as [X|[X [x Hx]]]; [left; exact X|]. right. split; [exact X|]. exists x. apply in_or_app; auto.
    + destruct (isErr r) eqn:E; [right; right; simpl; lia|]. rewrite noerr_finish. apply isErr_false in E. simpl.
      destruct q_rec0 as [X|[X|X]]; auto.
    + intros X x Hx. rewrite starts_fin. destruct (Hw x) as [-> _]. specialize (q_all0 X x Hx). lia.
  - destruct Wo as [Wo1 Wo2]. apply isErr_code in Wo1. inversion H; subst; clear H; cbn [opt2l app]. destruct R. cbn [sumf w_tok w_body w_cnt w_perr] in *.
    constructor; cbn [sumf w_tok w_body w_cnt w_perr]; try assumption.
    + intros o [<-|Ho]; [exact I|]. apply q_wf0; right; exact Ho.
    + destruct (isErr st) eqn:E.
      * rewrite st_plus_err by exact E. rewrite E. exact q_stat0.
      * rewrite st_plus_take by assumption. right. split; [exact Wo1|]. eauto.
    + right. left. rewrite st_plus_isErr, Wo1. apply Bool.orb_true_r.
    + intros X. rewrite st_plus_isErr, Wo1, Bool.orb_true_r in X. discriminate.
  - inversion H; subst; clear H; cbn [opt2l app]. destruct R. cbn [sumf w_tok w_body w_cnt w_perr] in *.
    constructor; cbn [sumf w_tok w_body w_cnt w_perr]; try assumption; [lia|].
    intros o [<-|Ho]; [exact I|]. apply q_wf0; right; exact Ho.
  - inversion H; subst; clear H. destruct R. cbn [sumf w_tok w_body w_cnt w_perr] in *.
    match goal with |- context [if ?b then _ else _] => destruct b end; cbn [opt2l app]; constructor; cbn [sumf w_tok w_body w_cnt w_perr]; try assumption.
    + intros o [<-|Ho]; [exact I|]. apply q_wf0; right; exact Ho.
    + intros o Ho. apply q_wf0; right; exact Ho.
  - inversion H; subst; clear H. destruct R. cbn [sumf w_tok w_body w_cnt w_perr opt2l app] in *. constructor; try assumption.
    intros o Ho. apply q_wf0; right; exact Ho.
Qed.

(** All pending work of a state. *)
Definition push_rest (m : pphase) : list nat := match m with QPush l => l | _ => [] end.
Definition bag (s : pst) : list pop := p_act s ++ map PTest (p_pool s) ++ map PTest (push_rest (p_main s)).
Definition quiet (o : pop) : Prop := match o with PCheck _ | PNotify => True | _ => False end.
Lemma quiet_w o : quiet o -> (forall e, w_tok e o = 0) /\ (forall e, w_body e o = 0) /\ w_cnt o = 0 /\ w_perr o = 0.
Proof. destruct o; simpl; intuition. Qed.

Definition notif1 (s : pst) : Prop := exists o, In o (p_act s) /\ (o = PNotify \/ exists n, o = PCheck n /\ N <= n).
Definition notif2 (s : pst) : Prop := exists o, In o (p_act s) /\ match o with PCount _ | PCheck _ | PNotify => True | _ => False end.
Definition pwait (s : pst) : Prop :=
  match p_main s with
  | QEvalErr => N <= p_num s -> notif1 s
  | QPreSleep | QAsleep => (N <= p_num s -> notif1 s) /\ (isErr (p_stat s) = true -> notif2 s)
  | _ => True
  end.
Definition done (s : pst) : Prop := N <= p_num s \/ isErr (p_stat s) = true.
Definition st_ok (st : status) : Prop := st = st_default \/ isErr st = true.
Definition pphase_ok (s : pst) : Prop :=
  match p_main s with
  | QIdle => match p_out s with
             | None => p_stat s = st_default /\ p_tr s = [] /\ bag s = []
             | Some st => PI (p_num s) (p_stat s) (p_tr s) (bag s) /\ st = p_stat s /\ done s
             end
  | QPrep => st_ok (p_stat s) /\ p_tr s = [] /\ (forall o, In o (bag s) -> quiet o)
  | QZero => p_stat s = st_default /\ p_tr s = [] /\ (forall o, In o (bag s) -> quiet o)
  | QRet => PI (p_num s) (p_stat s) (p_tr s) (bag s) /\ done s
  | _ => PI (p_num s) (p_stat s) (p_tr s) (bag s)
  end.
Record PInv (s : pst) : Prop := {
  i_phase : pphase_ok s;
  i_out : p_main s <> QIdle -> p_out s = None;
  i_wait : pwait s
}.
Lemma PInv_init : PInv p_init.
Proof. constructor; [split; [reflexivity|split; reflexivity]|reflexivity|exact I]. Qed.

Lemma PI_fin_le num st tr B : PI num st tr B -> NoDup (map fst (finishes tr)) /\ incl (map fst (finishes tr)) L /\ length (finishes tr) <= N.
Proof.
  intros R.
  assert (H1 : NoDup (map fst (finishes tr))).
  { apply cnt_nodup. intros e. pose proof (q_once _ _ _ _ R e). pose proof (q_body _ _ _ _ R e). lia. }
  assert (H2 : incl (map fst (finishes tr)) L).
  { intros e He. apply (q_started _ _ _ _ R). apply cnt_in. apply cnt_in in He. pose proof (q_body _ _ _ _ R e). lia. }
  split; [exact H1|]. split; [exact H2|]. rewrite <- (map_length fst (finishes tr)). apply NoDup_incl_length; assumption.
Qed.
(** Once all are counted, everything has run, every error is recorded, only harmless actions are left. *)
Lemma PI_full num st tr B : PI num st tr B -> N <= num ->
  Permutation (starts tr) L /\ Permutation (map fst (finishes tr)) L /\ (noerr tr \/ isErr st = true) /\ (forall o, In o B -> quiet o).
Proof.
  intros R Hn. destruct (PI_fin_le _ _ _ _ R) as [H1 [H2 H3]]. pose proof (q_num _ _ _ _ R) as Q.
  assert (Hc : sumf w_cnt B = 0) by lia.
  assert (Hfin : length (finishes tr) = N) by lia.
  assert (Hp : Permutation (map fst (finishes tr)) L).
  { apply NoDup_Permutation_bis; [exact H1|rewrite map_length; fold N; lia|exact H2]. }
  assert (Hf1 : forall e, In e L -> cnt e (map fst (finishes tr)) = 1).
  { intros e He. apply (Permutation_in _ (Permutation_sym Hp)) in He. apply cnt_in in He. apply cnt_nodup with (e := e) in H1. lia. }
  assert (Hs : forall e, In e L -> cnt e (starts tr) = 1 /\ sumf (w_tok e) B = 0 /\ sumf (w_body e) B = 0).
  { intros e He. pose proof (q_once _ _ _ _ R e). pose proof (q_body _ _ _ _ R e). rewrite (Hf1 e He) in H0. lia. }
  split; [|split; [exact Hp|split]].
  - apply NoDup_Permutation; [|exact HL|].
    + apply cnt_nodup. intros e. pose proof (q_once _ _ _ _ R e). lia.
    + intros e. split; [apply (q_started _ _ _ _ R)|]. intros He. apply cnt_in. destruct (Hs e He). lia.
  - destruct (q_rec _ _ _ _ R) as [X|[X|X]]; auto. exfalso.
    assert (sumf w_perr B <= sumf w_cnt B) by (apply sumf_le; intros o _; destruct o; simpl; lia). lia.
  - intros o Ho. pose proof (q_wf _ _ _ _ R o Ho) as W.
    assert (C : w_cnt o = 0) by (pose proof (sumf_in w_cnt B o Ho); lia).
    destruct o as [e|e|e|e r|e|n|]; simpl in *; try exact I; try discriminate; exfalso; destruct (Hs e W) as [_ [T1 T2]].
    + pose proof (sumf_in (w_tok e) B _ Ho) as X. simpl in X. rewrite Nat.eqb_refl in X. simpl in X. lia.
    + pose proof (sumf_in (w_tok e) B _ Ho) as X. simpl in X. rewrite Nat.eqb_refl in X. simpl in X. lia.
    + pose proof (sumf_in (w_body e) B _ Ho) as X. simpl in X. rewrite Nat.eqb_refl in X. simpl in X. lia.
Qed.

(** run() is called again after a failed run only once the pool is idle. *)
Definition p_idle (s : pst) : Prop := p_pool s = [] /\ p_act s = [].
Definition p_may_call (s : pst) : Prop := forall st, p_out s = Some st -> (code st < 0)%Z -> p_idle s.
Fixpoint p_disciplined (s : pst) (ls : list dlabel) : Prop :=
  match ls with
  | [] => True
  | l :: r => (l = LRun -> p_may_call s) /\ match pstep c s l with Some s' => p_disciplined s' r | None => True end
  end.

Lemma cnt_sum_tests e l : sumf (w_tok e) (map PTest l) = cnt e l.
Proof. induction l as [|x l IH]; [reflexivity|]. cbn [map sumf w_tok]. rewrite IH, cnt_cons. reflexivity. Qed.
Lemma PI_start act pool : (forall o, In o (act ++ map PTest pool) -> quiet o) ->
  PI 0 st_default [] (act ++ map PTest pool ++ map PTest L).
Proof.
  intros H. rewrite app_assoc. set (Q := act ++ map PTest pool) in *.
  assert (Z : forall f : pop -> nat, (forall o, quiet o -> f o = 0) -> sumf f Q = 0) by (intros f Hf; apply sumf_zero; intros o Ho; apply Hf, H, Ho).
  assert (Zb : forall e, sumf (w_body e) (map PTest L) = 0) by (intros e; rewrite sumf_map; apply sumf_zero; reflexivity).
  constructor; simpl.
  - intros e. rewrite sumf_app, cnt_sum_tests, (Z (w_tok e)) by (intros o Ho; apply (quiet_w o Ho)). pose proof (proj1 (cnt_nodup L) HL e). change (cnt e []) with 0. lia.
  - intros e. rewrite sumf_app, Zb, (Z (w_body e)) by (intros o Ho; apply (quiet_w o Ho)). reflexivity.
  - rewrite sumf_app, (Z w_cnt) by (intros o Ho; apply (quiet_w o Ho)). rewrite sumf_map. apply sumf_zero. reflexivity.
  - intros o Ho. apply in_app_or in Ho. destruct Ho as [Ho|Ho].
    + apply H in Ho. destruct o; simpl in *; try contradiction; exact I.
    + apply in_map_iff in Ho. destruct Ho as [e [<- He]]. exact He.
  - intros e [].
  - left; reflexivity.
  - left. intros e r [].
  - intros _ e He. rewrite sumf_app, cnt_sum_tests, (Z (w_tok e)) by (intros o Ho; apply (quiet_w o Ho)). change (cnt e []) with 0.
    pose proof (proj1 (cnt_nodup L) HL e). apply cnt_in in He. lia.
Qed.

Lemma act_change i (act : list pop) (o : pop) (next : option pop) : nth_error act i = Some o ->
  Permutation (match next with Some o' => replace_nth i o' act | None => remove_nth i act end) (opt2l next ++ remove_nth i act).
Proof. intros H. destruct next as [o'|]; simpl; [apply (replace_nth_perm i act o o' H)|reflexivity]. Qed.

Lemma work_wait s i r s' : PInv s -> pstep c s (LWork i r) = Some s' -> pwait s'.
Proof.
  intros Iv H. pose proof (i_wait s Iv) as W. simpl in H. destruct (nth_error (p_act s) i) as [o|] eqn:En; [|discriminate].
  destruct (pop_enabled (p_main s) o) eqn:Ee; [|discriminate].
  destruct (pop_sem c (p_num s) (p_stat s) (p_tr s) o r) as [[[[num st] tr] next] nt] eqn:Es. inversion H; subst; clear H.
  set (act' := match next with Some o' => replace_nth i o' (p_act s) | None => remove_nth i (p_act s) end).
  assert (Pa : Permutation (p_act s) (o :: remove_nth i (p_act s))) by (apply nth_error_remove; exact En).
  assert (Pb : Permutation act' (opt2l next ++ remove_nth i (p_act s))) by (apply (act_change i (p_act s) o next En)).
  assert (Hold : forall x, In x (p_act s) -> x = o \/ In x act').
  { intros x Hx. apply (Permutation_in _ Pa) in Hx. destruct Hx as [<-|Hx]; [auto|right]. apply (Permutation_in _ (Permutation_sym Pb)), in_or_app; auto. }
  assert (Hnew : forall x, next = Some x -> In x act').
  { intros x ->. apply (Permutation_in _ (Permutation_sym Pb)). left; reflexivity. }
  (* notifier 1 survives or is created *)
  assert (A1 : p_main s = QEvalErr \/ p_main s = QPreSleep \/ p_main s = QAsleep -> nt = false ->
     (N <= p_num s -> notif1 s) -> N <= num -> exists x, In x act' /\ (x = PNotify \/ exists n, x = PCheck n /\ N <= n)).
  { intros Hm Hnt Hq Hn. destruct o as [e|e|e|e r0|e|n|]; cbn [pop_sem] in Es; inversion Es; subst; clear Es; try discriminate;
      try (destruct (Hq Hn) as [x [Hx [->|[n0 [-> Hn0]]]]]; destruct (Hold _ Hx) as [X|X]; [discriminate X|exists PNotify; split; [exact X|left; reflexivity]|discriminate X|exists (PCheck n0); split; [exact X|right; exists n0; auto]]).
    - exists (PCheck (S (p_num s))). split; [apply Hnew; reflexivity|right; eauto].
    - destruct (Hq Hn) as [x [Hx [->|[n0 [-> Hn0]]]]]; destruct (Hold _ Hx) as [X|X]; try discriminate X;
        try solve [exists PNotify; split; [exact X|left; reflexivity]|exists (PCheck n0); split; [exact X|right; exists n0; auto]].
      inversion X; subst. exists PNotify. split; [|left; reflexivity]. apply Hnew. destruct (Nat.leb_spec (length (p_els c)) n); [reflexivity|]. fold L N in H. lia. }
  assert (A2 : nt = false -> (isErr (p_stat s) = true -> notif2 s) -> isErr st = true ->
     exists x, In x act' /\ match x with PCount _ | PCheck _ | PNotify => True | _ => False end).
  { intros Hnt Hq Hn. destruct o as [e|e|e|e r0|e|n|]; cbn [pop_sem] in Es; inversion Es; subst; clear Es; try discriminate;
      try (destruct (Hq Hn) as [x [Hx Hk]]; destruct (Hold _ Hx) as [->|X]; [contradiction|eauto]).
    - exists (PCount e). split; [apply Hnew; reflexivity|exact I].
    - exists (PCheck (S (p_num s))). split; [apply Hnew; reflexivity|exact I].
    - exists PNotify. split; [|exact I]. apply Hnew. rewrite Hn, Bool.orb_true_r. reflexivity. }
  assert (Hnt : nt = true -> o = PNotify).
  { destruct o; cbn [pop_sem] in Es; inversion Es; subst; try discriminate; reflexivity. }
  unfold pwait in *. cbn [p_main p_num p_stat p_act]. unfold notif1, notif2. cbn [p_act]. fold act'.
  destruct (p_main s) eqn:Em; cbn [p_wake]; auto.
  - destruct nt; [rewrite (Hnt eq_refl) in Ee; simpl in Ee; discriminate|]. auto.
  - destruct nt; [rewrite (Hnt eq_refl) in Ee; simpl in Ee; discriminate|]. destruct W. auto.
  - destruct nt; [exact I|]. destruct W. auto.
Qed.

Lemma PInv_step s lb s' : PInv s -> (lb = LRun -> p_may_call s) -> pstep c s lb = Some s' -> PInv s'.
Proof.
  intros Iv Hcall H. destruct lb as [|r|i r|i|].
  - specialize (Hcall eq_refl). simpl in H. destruct (p_main s) eqn:E; try discriminate. inversion H; subst; clear H.
    pose proof (i_phase s Iv) as P. unfold pphase_ok in P. rewrite E in P.
    constructor; cbn [p_main p_out]; auto; [|exact I]. unfold pphase_ok. cbn [p_main p_stat p_tr].
    destruct (p_out s) as [st|] eqn:Eo.
    + destruct P as [R [-> D]]. split; [|split; [reflexivity|]].
      * destruct (q_stat _ _ _ _ R) as [X|[X _]]; [left; exact X|right; exact X].
      * destruct (isErr (p_stat s)) eqn:Ee.
        { destruct (Hcall _ Eo) as [X1 X2]; [apply isErr_code; exact Ee|]. unfold bag. cbn [p_act p_pool p_main push_rest map]. rewrite X1, X2. intros o []. }
        { destruct D as [D|D]; [|congruence]. destruct (PI_full _ _ _ _ R D) as [_ [_ [_ Q]]]. unfold bag in *. rewrite E in Q. exact Q. }
    + destruct P as [P1 [P2 P3]]. split; [left; exact P1|]. split; [reflexivity|]. unfold bag in *. rewrite E in P3. cbn [p_act p_pool p_main push_rest]. cbn [push_rest] in P3. rewrite P3. intros o [].
  - simpl in H. pose proof (i_phase s Iv) as P. pose proof (i_out s Iv) as O. pose proof (i_wait s Iv) as W. unfold pphase_ok, pwait in *.
    destruct (p_main s) as [| | |[|e l]|[|n]| | | | | |] eqn:E; try discriminate; inversion H; subst; clear H; specialize (O ltac:(discriminate));
      (constructor; [unfold pphase_ok|cbn [p_out p_main]; auto|unfold pwait]; cbn [p_num p_stat p_tr p_pool p_act p_main p_out]; auto).
    + destruct P as [P1 [P2 P3]]. split; [|split; [exact P2|]].
      * unfold prepare_status. destruct P1 as [->|P1]; [reflexivity|]. destruct (isOK (p_stat s)) eqn:X; [apply isOK_not_err in X; congruence|]. unfold st_reset. unfold isOK in X. rewrite X. reflexivity.
      * unfold bag in *. rewrite E in P3. exact P3.
    + destruct P as [P1 [P2 P3]]. rewrite P1, P2. unfold bag in *. cbn [p_act p_pool p_main push_rest]. rewrite E in P3. cbn [push_rest map] in P3. rewrite app_nil_r in P3. rewrite Hrows. apply PI_start. exact P3.
    + unfold bag in *. rewrite E in P. exact P.
    + eapply PI_perm; [|exact P]. unfold bag. rewrite E. cbn [p_act p_pool p_main push_rest]. apply Permutation_app_head. rewrite map_app. rewrite <- app_assoc. reflexivity.
    + unfold bag in *. rewrite E in P. exact P.
    + destruct (Nat.leb_spec (length (p_els c)) (p_num s)) as [X|X]; unfold bag in *; rewrite E in P; cbn [push_rest p_act p_pool p_main] in *; [split; [exact P|left; exact X]|exact P].
    + destruct (Nat.leb _ _); exact I.
    + unfold bag in *. rewrite E in P. exact P.
    + destruct (Nat.leb_spec (length (p_els c)) (p_num s)) as [X|X]; unfold bag in *; rewrite E in P; cbn [push_rest p_act p_pool p_main] in *; [split; [exact P|left; exact X]|exact P].
    + destruct (Nat.leb_spec (length (p_els c)) (p_num s)) as [X|X]; [exact I|]. fold L N in X. intros. lia.
    + destruct (isErr (p_stat s)) eqn:X; unfold bag in *; rewrite E in P; cbn [push_rest p_act p_pool p_main] in *; [split; [exact P|right; exact X]|exact P].
    + destruct (isErr (p_stat s)) eqn:X; [exact I|]. split; [exact W|intros; discriminate].
    + unfold bag in *. rewrite E in P. exact P.
    + destruct P as [P D]. unfold bag in *. rewrite E in P. cbn [push_rest p_act p_pool p_main] in *. split; [exact P|]. split; [reflexivity|exact D].
    + intros X; exfalso; apply X; reflexivity.
  - pose proof (work_wait s i r s' Iv H) as Hw. simpl in H. destruct (nth_error (p_act s) i) as [o|] eqn:En; [|discriminate].
    destruct (pop_enabled (p_main s) o) eqn:Ee; [|discriminate].
    destruct (pop_sem c (p_num s) (p_stat s) (p_tr s) o r) as [[[[num st] tr] next] nt] eqn:Es. inversion H; subst; clear H.
    pose proof (i_phase s Iv) as P. pose proof (i_out s Iv) as O.
    set (act' := match next with Some o' => replace_nth i o' (p_act s) | None => remove_nth i (p_act s) end) in *.
    assert (Pa : Permutation (p_act s) (o :: remove_nth i (p_act s))) by (apply nth_error_remove; exact En).
    assert (Pb : Permutation act' (opt2l next ++ remove_nth i (p_act s))) by (apply (act_change i (p_act s) o next En)).
    assert (HoB : In o (p_act s)) by (eapply nth_error_In; exact En).
    assert (Main : forall rest, PI (p_num s) (p_stat s) (p_tr s) (p_act s ++ rest) -> PI num st tr (act' ++ rest)).
    { intros rest R. eapply PI_perm; [symmetry; apply Permutation_app_tail; exact Pb|]. rewrite <- app_assoc. eapply PI_op; [exact Es|].
      eapply PI_perm; [|exact R]. apply (Permutation_app_tail rest) in Pa. exact Pa. }
    assert (Quiet : forall rest, (forall o, In o (p_act s ++ rest) -> quiet o) -> num = p_num s /\ st = p_stat s /\ tr = p_tr s /\ (forall o, In o (act' ++ rest) -> quiet o)).
    { intros rest Q. assert (Qo : quiet o) by (apply Q, in_or_app; auto).
      assert (Qr : forall x, In x (remove_nth i (p_act s)) -> quiet x) by (intros x Hx; apply Q, in_or_app; left; apply (Permutation_in _ (Permutation_sym Pa)); right; exact Hx).
      assert (K : num = p_num s /\ st = p_stat s /\ tr = p_tr s /\ (forall x, next = Some x -> quiet x)).
      { destruct o; simpl in Qo; try contradiction; cbn [pop_sem] in Es; inversion Es; subst; repeat split; intros x Hx; try discriminate Hx.
        destruct (_ || _); inversion Hx; subst; exact I. }
      destruct K as [-> [-> [-> Kn]]]. repeat split. intros x Hx. apply in_app_or in Hx. destruct Hx as [Hx|Hx]; [|apply Q, in_or_app; auto].
      apply (Permutation_in _ Pb) in Hx. apply in_app_or in Hx. destruct Hx as [Hx|Hx]; [|auto]. destruct next as [y|]; [|contradiction]. destruct Hx as [<-|[]]. apply Kn; reflexivity. }
    assert (Hdone : done s -> N <= num \/ isErr st = true).
    { intros D. destruct o; cbn [pop_sem] in Es; inversion Es; subst; try exact D; destruct D as [D|D]; auto.
      - right. rewrite st_plus_isErr, D. reflexivity. }
    constructor; [|cbn [p_main p_out]|exact Hw].
    + unfold pphase_ok, bag in *. cbn [p_num p_stat p_tr p_pool p_act p_main p_out].
      destruct (p_main s) eqn:E; cbn [p_wake push_rest] in *; auto.
      * destruct (p_out s) as [st0|].
        { destruct P as [R [E0 D]].
          (* the caller is idle; the status can change only if it was not an error and the count not complete *)
          assert (Hst : st = p_stat s).
          { destruct D as [D|D].
            - destruct (PI_full _ _ _ _ R D) as [_ [_ [_ Q]]]. apply (Quiet _ Q).
            - destruct o; cbn [pop_sem] in Es; inversion Es; subst; auto. rewrite st_plus_err by exact D. reflexivity. }
          split; [apply Main; exact R|]. split; [congruence|]. unfold done. apply Hdone; exact D. }
        { destruct P as [_ [_ P3]]. destruct (p_act s); [contradiction HoB|discriminate P3]. }
      * destruct P as [P1 [P2 P3]]. destruct (Quiet _ P3) as [-> [-> [-> Q]]]. auto.
      * destruct P as [P1 [P2 P3]]. destruct (Quiet _ P3) as [-> [-> [-> Q]]]. auto.
      * destruct nt; cbn [push_rest]; auto.
      * destruct P as [P D]. split; [auto|]. unfold done. apply Hdone; exact D.
    + intros X. apply O. intros Y. apply X. rewrite Y. reflexivity.
  - simpl in H. destruct (Nat.ltb _ _); [|discriminate]. destruct (nth_error (p_pool s) i) as [e|] eqn:En; [|discriminate]. inversion H; subst; clear H.
    assert (Pb : Permutation (bag s) (bag (mkP (p_num s) (p_stat s) (p_tr s) (remove_nth i (p_pool s)) (p_act s ++ [PTest e]) (p_main s) (p_out s)))).
    { unfold bag. cbn [p_act p_pool p_main]. rewrite <- app_assoc. apply Permutation_app_head. simpl.
      rewrite (Permutation_map PTest (nth_error_remove i _ e En)). reflexivity. }
    pose proof (i_phase s Iv) as P. pose proof (i_out s Iv) as O. pose proof (i_wait s Iv) as W.
    constructor.
    + unfold pphase_ok in *. cbn [p_num p_stat p_tr p_main p_out].
      assert (HoB : In (PTest e) (bag s)) by (unfold bag; apply in_or_app; right; apply in_or_app; left; apply in_map; eapply nth_error_In; exact En).
      destruct (p_main s) eqn:E; try (eapply PI_perm; [exact Pb|exact P]).
      * destruct (p_out s); [|destruct P as [_ [_ P]]; rewrite P in HoB; contradiction].
        destruct P as [P D]. split; [eapply PI_perm; [exact Pb|exact P]|exact D].
      * destruct P as [_ [_ P]]. destruct (P _ HoB).
      * destruct P as [_ [_ P]]. destruct (P _ HoB).
      * destruct P as [P D]. split; [eapply PI_perm; [exact Pb|exact P]|exact D].
    + exact O.
    + unfold pwait, notif1, notif2 in *. cbn [p_main p_num p_stat p_act].
      assert (M1 : forall Q : pop -> Prop, (exists o, In o (p_act s) /\ Q o) -> exists o, In o (p_act s ++ [PTest e]) /\ Q o) by (intros Q [o [Ho HQ]]; exists o; split; [apply in_or_app; auto|exact HQ]).
      destruct (p_main s); auto.
      * destruct W as [W1 W2]. split; auto.
      * destruct W as [W1 W2]. split; auto.
  - simpl in H. destruct (p_main s) eqn:E; try discriminate. inversion H; subst; clear H.
    pose proof (i_phase s Iv) as P. pose proof (i_out s Iv) as O. constructor; [| |exact I].
    + unfold pphase_ok, bag in *. rewrite E in P. exact P.
    + intros _. apply O. rewrite E. discriminate.
Qed.

Lemma prun_inv : forall ls s s', PInv s -> p_disciplined s ls -> prun c s ls = Some s' -> PInv s'.
Proof.
  induction ls as [|l ls IH]; intros s s' I D H; simpl in H; [inversion H; subst; exact I|].
  destruct D as [D1 D2]. destruct (pstep c s l) as [s1|] eqn:E; [|discriminate].
  apply (IH s1); [eapply PInv_step; eassumption|exact D2|exact H].
Qed.

Lemma pprogress s : PInv s -> 0 < p_workers c -> p_main s <> QIdle -> exists l s', internal l /\ pstep c s l = Some s'.
Proof.
  intros Iv Hw Hm. destruct (p_main s) as [| | |[|e l]|[|n]| | | | | |] eqn:E; try (exists (LMain st_default); simpl; rewrite E; eexists; split; [exact I|reflexivity]).
  - congruence.
  - (* asleep *)
    destruct (p_act s) as [|o act] eqn:Ea.
    + destruct (p_pool s) as [|e l] eqn:Ep.
      * exfalso. pose proof (i_wait s Iv) as W. unfold pwait in W. rewrite E in W. destruct W as [W1 W2].
        pose proof (i_phase s Iv) as P. unfold pphase_ok, bag in P. rewrite E, Ea, Ep in P. simpl in P.
        destruct (isErr (p_stat s)) eqn:Ee.
        { destruct (W2 eq_refl) as [o [Ho _]]. rewrite Ea in Ho. contradiction. }
        { assert (Hn : N <= p_num s).
          { pose proof (q_num _ _ _ _ P) as Q. simpl in Q. rewrite Nat.add_0_r in Q. rewrite Q, <- (map_length fst).
            apply NoDup_incl_length; [exact HL|]. intros x Hx. apply cnt_in. pose proof (q_all _ _ _ _ P Ee x Hx) as A. pose proof (q_body _ _ _ _ P x) as Bd. simpl in *. lia. }
          destruct (W1 Hn) as [o [Ho _]]. rewrite Ea in Ho. contradiction. }
      * exists (LPick 0). simpl. rewrite Ea, Ep. destruct (Nat.ltb_spec (length (@nil pop)) (p_workers c)); [|simpl in *; lia]. simpl. eexists. split; [exact I|reflexivity].
    + exists (LWork 0 st_default). simpl. rewrite Ea, E. simpl. replace (pop_enabled QAsleep o) with true by (destruct o; reflexivity).
      destruct (pop_sem c (p_num s) (p_stat s) (p_tr s) o st_default) as [[[[num st] tr] next] nt]. eexists. split; [exact I|reflexivity].
Qed.

(** Termination measure. *)
Definition pw (o : pop) : nat :=
  match o with PTest _ => 13 | PStart _ => 12 | PBody _ => 11 | PErr _ _ => 10 | PCount _ => 9 | PCheck _ => 8 | PNotify => 6 end.
Definition pm (m : pphase) : nat :=
  match m with
  | QIdle => 0 | QPrep => 15 * N + p_epoch c + 12 | QZero => 15 * N + p_epoch c + 11
  | QPush l => 15 * length l + p_epoch c + 9 | QPoll n => n + 8
  | QLock => 6 | QEvalNum => 5 | QEvalErr => 4 | QPreSleep => 3 | QAsleep => 2 | QRet => 1
  end.
Definition pmeasure (s : pst) : nat := pm (p_main s) + 14 * length (p_pool s) + sumf pw (p_act s).
Lemma pstep_measure s lb s' : lb <> LRun -> pstep c s lb = Some s' -> S (pmeasure s') <= pmeasure s + spur lb.
Proof.
  intros Hl H. unfold pmeasure. destruct lb as [|r|i r|i|]; [congruence|..]; simpl in H.
  - destruct (p_main s) as [| | |[|e l]|[|n]| | | | | |] eqn:E; try discriminate; inversion H; subst; clear H;
      cbn [p_main p_pool p_act pm spur length]; try rewrite Hrows; fold N; try (destruct (Nat.leb _ _)); try (destruct (isErr _));
      cbn [pm]; try rewrite app_length; cbn [length]; unfold N, L; lia.
  - destruct (nth_error (p_act s) i) as [o|] eqn:En; [|discriminate]. destruct (pop_enabled (p_main s) o) eqn:Ee; [|discriminate].
    destruct (pop_sem c (p_num s) (p_stat s) (p_tr s) o r) as [[[[num st] tr] next] nt] eqn:Es. inversion H; subst; clear H.
    cbn [p_main p_pool p_act spur]. rewrite (sumf_perm pw _ _ (act_change i (p_act s) o next En)), (sumf_perm pw _ _ (nth_error_remove i _ o En)), sumf_app.
    cbn [sumf].
    assert (Hd : sumf pw (opt2l next) + 1 <= pw o /\ (nt = true -> sumf pw (opt2l next) + 6 <= pw o)).
    { destruct o; cbn [pop_sem] in Es; inversion Es; subst; clear Es; try (destruct (isErr _)); try (destruct (_ || _)); simpl; split; intros; try lia; discriminate. }
    destruct Hd as [Hd1 Hd2].
    assert (Hk : pm (p_wake nt (p_main s)) <= pm (p_main s) + (if nt then 4 else 0)).
    { destruct (p_main s), nt; simpl; lia. }
    destruct nt; [specialize (Hd2 eq_refl)|]; lia.
  - destruct (Nat.ltb _ _); [|discriminate]. destruct (nth_error (p_pool s) i) as [e|] eqn:En; [|discriminate]. inversion H; subst; clear H.
    cbn [p_main p_pool p_act spur]. rewrite sumf_app. cbn [sumf pw]. rewrite (Permutation_length (nth_error_remove i _ e En)). simpl. lia.
  - destruct (p_main s); try discriminate. inversion H; subst; clear H. cbn [p_main p_pool p_act pm spur]. lia.
Qed.
Lemma prun_measure : forall ls s s', ~ In LRun ls -> prun c s ls = Some s' -> length ls + pmeasure s' <= pmeasure s + sumf spur ls.
Proof.
  induction ls as [|l ls IH]; intros s s' Hn H; simpl in H; [inversion H; subst; simpl; lia|].
  destruct (pstep c s l) as [s1|] eqn:E; [|discriminate].
  assert (H1 : l <> LRun) by (intros ->; apply Hn; left; reflexivity).
  pose proof (pstep_measure s l s1 H1 E). assert (H2 : ~ In LRun ls) by (intros X; apply Hn; right; exact X). specialize (IH _ _ H2 H). simpl. lia.
Qed.
End Par.
