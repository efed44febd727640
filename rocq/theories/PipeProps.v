(** C16, C24, C25, C27 and C56-C58: the pipeline as a whole. [ask] gives the results of all user callbacks; it may depend
    on everything that happened before (the log of calls and answers). *)
From Verif Require Import GraphModel GraphSpec StaticModel EngineSeqProofs DynModel DynInv DynProofs DynTerm DynProps GraphProps ElemProofs StatusProofs PipeModel PipeProofs PipeLife.
From Coq Require Import Lia.
Local Open Scope nat_scope.
Local Open Scope list_scope.

(** * C24: life cycle *)

(** Whether a pipeline is initialised, from what its user sees: the calls and their results. process leaves the state as
    C24_process says. *)
Fixpoint active (a : bool) (h : list pop) (vs : list (out status)) : bool :=
  match h, vs with
  | OInit :: h', v :: vs' => active (if ok_out v then true else a) h' vs'
  | ODestroy :: h', v :: vs' => active (if ok_out v then false else a) h' vs'
  | _ :: h', _ :: vs' => active a h' vs'
  | _, _ => a
  end.
Definition no_process (o : pop) : Prop := match o with OProcess _ | OAsyncProcess _ => False | _ => True end.

Lemma step_active ask p o p1 v : no_process o -> pipe_step ask p o = (p1, v) ->
  pp_init p1 = match o with OInit => if ok_out v then true else pp_init p | ODestroy => if ok_out v then false else pp_init p | _ => pp_init p end.
Proof.
  intros N E. destruct o; cbn [pipe_step] in E; try contradiction.
  - destruct (pipe_init_spec ask _ _ _ E) as (_ & _ & _ & H & _). destruct (ok_out v); tauto.
  - destruct (pp_init p) eqn:Ei; [destruct (pipe_run_spec ask _ _ _ E Ei); tauto|]. unfold pipe_run in E. rewrite Ei in E. now injection E as <- _.
  - destruct (pipe_destroy_spec ask _ _ _ E) as (_ & _ & H & _). destruct (ok_out v); tauto.
  - destruct (pp_init p) eqn:Ei; [destruct (pipe_run_spec ask _ _ _ E Ei); tauto|now injection E as <- _].
  - destruct (pp_init p) eqn:Ei; injection E as <- _; [reflexivity|exact Ei].
  - destruct (pp_init p) eqn:Ei; injection E as <- _; [reflexivity|exact Ei].
  - destruct (pp_init p) eqn:Ei; injection E as <- _; [reflexivity|exact Ei].
  - destruct (pp_init p) eqn:Ei; [injection E as <- _; exact Ei|]. destruct (extends (pp_cfg p) c); injection E as <- _; [reflexivity|exact Ei].
  - injection E as <- _. reflexivity.
Qed.

Theorem C24_state : forall ask h p p' vs, Forall no_process h -> pipe_history ask h p = (p', vs) ->
  pp_init p' = active (pp_init p) h vs /\ List.length vs = List.length h.
Proof.
  intros ask. induction h as [|o h IH]; intros p p' vs N E; cbn in E.
  - injection E as <- <-. auto.
  - inversion N; subst. destruct (pipe_step ask p o) as [p1 v] eqn:E1. destruct (pipe_history ask h p1) as [p2 vs2] eqn:E2. injection E as <- <-.
    destruct (IH _ _ _ H2 E2) as [HI HL]. split; [|cbn; now rewrite HL]. rewrite HI, (step_active ask _ _ _ _ H1 E1). destruct o; reflexivity.
Qed.
Print Assumptions C24_state.

(** Which calls are refused: with an error status or an exception, and with no effect whatever. *)
Definition refused (a : bool) (o : pop) : bool :=
  match o with
  | OInit | OProcess _ | OAsyncProcess _ | OConfig _ _ => a
  | ORun | OAsyncRun | ODestroy | OCancel | OSuspend | OResume => negb a
  | OParam _ => false
  end.
Theorem C24_refused : forall ask p o p' v, refused (pp_init p) o = true -> pipe_step ask p o = (p', v) ->
  p' = p /\ ((exists s, v = Val s /\ (code s < 0)%Z) \/ exists m, v = Thrown m).
Proof.
  intros ask p o p' v R E.
  assert (NS : (code not_suitable < 0)%Z) by (cbn; unfold STATUS_ERR; lia).
  assert (PR : forall n, pp_init p = true -> pipe_process ask n p = (p, Val not_suitable)).
  { intros n Hi. unfold pipe_process, pipe_init. rewrite Hi. reflexivity. }
  destruct o; cbn [refused pipe_step] in *; try discriminate; try apply Bool.negb_true_iff in R;
    [unfold pipe_init in E|unfold pipe_run in E|unfold pipe_destroy in E|rewrite PR in E by exact R|idtac..];
    rewrite ?R in E; cbn [negb] in E; injection E as <- <-; (split; [easy|]); try (left; eexists; split; [reflexivity|exact NS]); try (right; eexists; reflexivity).
  destruct o; cbn; first [left; eexists; split; [reflexivity|exact NS]|right; eexists; reflexivity].
Qed.
Print Assumptions C24_refused.
(** How they are refused: the calls that answer with a status answer -1 with a fixed text, the calls that answer with something else
    (an object, a future, the pipeline itself) throw. *)
Definition gives_status (o : pop) : bool :=
  match o with
  | OAsyncRun | OAsyncProcess _ => false
  | OConfig (OpRegister | OpRegisterNode | OpMakeSerial | OpSave | OpLoad) _ => true
  | OConfig _ _ => false
  | _ => true
  end.
Theorem C24_answer : forall ask p o p' v, refused (pp_init p) o = true -> pipe_step ask p o = (p', v) ->
  v = if gives_status o then Val (mkStatus (-1) "init status is not suitable") else Thrown "[CException] init status is not suitable".
Proof.
  intros ask p o p' v R E.
  assert (PR : forall n, pp_init p = true -> pipe_process ask n p = (p, Val not_suitable)).
  { intros n Hi. unfold pipe_process, pipe_init. rewrite Hi. reflexivity. }
  destruct o; cbn [refused pipe_step gives_status] in *; try discriminate; try apply Bool.negb_true_iff in R;
    [unfold pipe_init in E|unfold pipe_run in E|unfold pipe_destroy in E|rewrite PR in E by exact R|idtac..];
    rewrite ?R in E; cbn [negb] in E; injection E as <- <-; try reflexivity.
  destruct o; reflexivity.
Qed.
Print Assumptions C24_answer.

(** Configuration calls are accepted, and take effect, exactly outside the interval; run reaches the user's code exactly
    inside it. *)
Theorem C24_accepted : forall ask p,
  (pp_init p = false -> forall o c, extends (pp_cfg p) c = true -> exists p', pipe_step ask p (OConfig o c) = (p', Val st_default) /\ pp_cfg p' = c) /\
  (pp_init p = true -> forall p' v, pipe_run ask p = (p', v) -> pp_log p' <> pp_log p).
Proof.
  intros ask p. split.
  - intros Hi o c Hc. cbn. rewrite Hi, Hc. eexists. split; reflexivity.
  - intros Hi p' v E. destruct (pipe_run_spec ask _ _ _ E Hi) as (_ & _ & _ & _ & _ & ds & _ & H).
    assert (NE : forall (x : plog) e y, pp_log p ++ x ++ e :: y <> pp_log p).
    { intros x e y H0. assert (X : pp_log p ++ (x ++ e :: y) = pp_log p ++ []) by (rewrite app_nil_r; exact H0). apply app_inv_head in X. now destruct x. }
    destruct H as [(s & F & -> & _)|(_ & _ & _ & [(m & _ & _ & ->)|(_ & dh & dw & dr & st & _ & _ & _ & _ & ->)])].
    + destruct ds as [|d ds]; [discriminate|]. apply (NE [] d ds).
    + apply NE.
    + apply NE.
Qed.
Print Assumptions C24_accepted.

Lemma init_val ask p p' v : pipe_init ask p = (p', Val v) -> (code v =? -996)%Z = false.
Proof.
  unfold pipe_init. intro E. destruct (pp_init p); [injection E as _ <-; reflexivity|].
  assert (K : forall s (q1 q2 q3 : pipe), match check_status s with Continue => (q1, Val s) | ReturnStatus w => (q2, Val w) | ThrowExc m => (q3, Thrown (what_of m)) end = (p', Val v) -> (code v =? -996)%Z = false).
  { intros s q1 q2 q3 H. destruct (Z_lt_ge_dec (code s) 0) as [Hs|Hs].
    - rewrite check_status_err in H by exact Hs. destruct (code s =? -996)%Z eqn:X; [discriminate|]. now injection H as _ <-.
    - rewrite check_status_ok in H by lia. injection H as _ <-. lia. }
  destruct (init_env ask p) as [p1 [u|m| |]]; try discriminate.
  destruct (Z_lt_ge_dec (code (st_plus st_default u)) 0) as [Hu|Hu].
  - rewrite check_status_err in E by exact Hu. destruct (code (st_plus st_default u) =? -996)%Z eqn:X; [discriminate|]. now injection E as _ <-.
  - rewrite (check_status_ok _ (Z.ge_le _ _ Hu)) in E.
    destruct (add_loop ask KPInit _ _ _). destruct (add_loop ask KEvInit _ _ _).
    match type of E with context [mgr_life ?a ?b ?c ?d ?e ?f] => destruct (mgr_life a b c d e f) as [[fl l3] [s3|m| |]] eqn:EM end; try discriminate.
    destruct (add_loop ask KDmInit _ _ _). eapply K, E.
Qed.

Lemma run_times_spec ask n : forall st p p' o, run_times ask n st p = (p', o) ->
  exists k rs, k <= n /\ pipe_history ask (repeat ORun k) p = (p', rs) /\ (0 < k -> isErr st = false) /\
    (forall j, j < k -> forall pj rj, pipe_history ask (repeat ORun j) p = (pj, rj) -> pp_cancel pj = false /\ Forall (fun r => ok_out r = true) rj) /\
    ((exists rs0 x, rs = rs0 ++ [x] /\ (forall s, x <> Val s) /\ o = x) \/
     (exists ss, rs = map Val ss /\ (k = n \/ pp_cancel p' = true \/ isErr st = true \/ exists s, In s ss /\ (code s < 0)%Z) /\ o = Val (st_sum st ss))).
Proof.
  induction n as [|n IH]; intros st p p' o E; cbn [run_times] in E.
  - injection E as <- <-. exists 0, []. split; [lia|]. split; [reflexivity|]. split; [lia|]. split; [intros; lia|]. right. exists []. auto.
  - destruct (isErr st || pp_cancel p) eqn:Eg.
    + injection E as <- <-. exists 0, []. split; [lia|]. split; [reflexivity|]. split; [lia|]. split; [intros; lia|]. right. exists []. split; [easy|]. split; [|easy].
      apply Bool.orb_true_iff in Eg. tauto.
    + apply Bool.orb_false_iff in Eg. destruct Eg as [Es Ecn]. destruct (pipe_run ask p) as [p1 ov] eqn:Er.
      assert (STOP : (forall s, ov <> Val s) -> p' = p1 -> o = ov -> exists k rs, k <= S n /\ pipe_history ask (repeat ORun k) p = (p', rs) /\ (0 < k -> isErr st = false) /\
        (forall j, j < k -> forall pj rj, pipe_history ask (repeat ORun j) p = (pj, rj) -> pp_cancel pj = false /\ Forall (fun r => ok_out r = true) rj) /\
        ((exists rs0 x, rs = rs0 ++ [x] /\ (forall s, x <> Val s) /\ o = x) \/
         (exists ss, rs = map Val ss /\ (k = S n \/ pp_cancel p' = true \/ isErr st = true \/ exists s, In s ss /\ (code s < 0)%Z) /\ o = Val (st_sum st ss)))).
      { intros NV -> ->. exists 1, [ov]. split; [lia|]. split; [cbn; now rewrite Er|]. split; [auto|]. split.
        - intros j Hj pj rj Hh. assert (j = 0) by lia. subst j. injection Hh as <- <-. auto.
        - left. exists [], ov. auto. }
      destruct ov as [v|m| |]; try (injection E as <- <-; apply STOP; congruence).
      clear STOP. destruct (IH _ _ _ _ E) as (k & rs & Hk & Hh & Hz & Hj & Hr).
      exists (S k), (Val v :: rs). split; [lia|]. split; [cbn [repeat pipe_history pipe_step]; now rewrite Er, Hh|]. split; [auto|]. split.
      * intros j Hjk pj rj Hpj. destruct j as [|j]; [injection Hpj as <- <-; auto|]. cbn [repeat pipe_history pipe_step] in Hpj. rewrite Er in Hpj.
        destruct (pipe_history ask (repeat ORun j) p1) as [p3 r3] eqn:E3. injection Hpj as <- <-. destruct (Hj j ltac:(lia) _ _ E3) as [H1 H2]. split; [exact H1|].
        constructor; [|exact H2]. apply ok_val. assert (Y : isErr (st_plus st v) = false) by (apply Hz; lia). apply isErr_ge in Y. apply plus_nonneg in Y. tauto.
      * destruct Hr as [(rs0 & x & -> & H1 & H2)|(ss & -> & H1 & H2)].
        -- left. exists (Val v :: rs0), x. auto.
        -- right. exists (v :: ss). split; [easy|]. split; [|exact H2]. destruct H1 as [->|[H1|[H1|(s & H1 & H3)]]]; auto.
           ++ right. right. right. exists v. split; [now left|]. destruct (isErr v) eqn:X; [now apply isErr_lt|]. rewrite st_plus_noterr in H1 by exact X. congruence.
           ++ right. right. right. exists s. split; [now right|exact H3].
Qed.

(** process(n): init; if that fails, nothing more. Then k <= n runs, stopping after the first failure or cancellation, then
    destroy, whatever the runs returned; the first error is the result. A run that throws ends process at once. *)
Theorem C24_process : forall ask n p p' o, pipe_process ask n p = (p', o) ->
  (exists oi, pipe_init ask p = (p', oi) /\ ok_out oi = false /\ o = oi) \/
  (exists p1 k p2 rs, pipe_init ask p = (p1, Val st_default) /\ k <= n /\ pipe_history ask (repeat ORun k) p1 = (p2, rs) /\
     (forall j, j < k -> forall pj rj, pipe_history ask (repeat ORun j) p1 = (pj, rj) -> pp_cancel pj = false /\ Forall (fun r => ok_out r = true) rj) /\
     ((exists rs0 x, rs = rs0 ++ [x] /\ (forall s, x <> Val s) /\ o = x /\ p' = p2) \/
      (exists ss d, rs = map Val ss /\ (k = n \/ pp_cancel p2 = true \/ exists s, In s ss /\ (code s < 0)%Z) /\ pipe_destroy ask p2 = (p', d) /\
         ((exists w, d = Val w /\ o = Val (st_sum st_default (ss ++ [w]))) \/ ((forall s, d <> Val s) /\ o = d))))).
Proof.
  intros ask n p p' o E. unfold pipe_process in E. destruct (pipe_init ask p) as [p1 oi] eqn:Ei.
  destruct (pipe_init_spec ask _ _ _ Ei) as (_ & _ & _ & H & _).
  destruct oi as [v|m| |]; [|left; injection E as <- <-; eexists; repeat split..].
  destruct (Z_lt_ge_dec (code v) 0) as [Hv|Hv].
  - left. exists (Val v). rewrite assign_err, check_status_err in E by (first [exact Hv|apply code_default]).
    rewrite (init_val ask _ _ _ Ei) in E. injection E as <- <-. split; [easy|]. split; [now apply bad_val|easy].
  - right. rewrite (proj2 (ok_val v)) in H by lia. destruct H as (Ev & _). injection Ev as ->.
    change (check_status (st_assign st_default st_default)) with Continue in E. change (st_assign st_default st_default) with st_default in E.
    destruct (run_times ask n st_default p1) as [p2 o2] eqn:Er. destruct (run_times_spec ask n _ _ _ _ Er) as (k & rs & Hk & Hh & _ & Hj & Hr).
    exists p1, k, p2, rs. split; [easy|]. split; [exact Hk|]. split; [exact Hh|]. split; [exact Hj|].
    destruct Hr as [(rs0 & x & -> & H1 & H2)|(ss & -> & H1 & H2)].
    + left. exists rs0, x. subst o2. split; [easy|]. split; [exact H1|]. destruct x as [s|m| |]; [now destruct (H1 s)|injection E as <- <-; auto..].
    + right. subst o2. destruct (pipe_destroy ask p2) as [p3 d] eqn:Ed. exists ss, d. split; [easy|].
      split. { destruct H1 as [H1|[H1|[H1|H1]]]; auto. discriminate. }
      destruct d as [w|m| |]; injection E as <- <-; (split; [easy|]).
      * left. exists w. split; [easy|]. now rewrite st_sum_app.
      * right. split; [discriminate|easy].
      * right. split; [discriminate|easy].
      * right. split; [discriminate|easy].
Qed.
Print Assumptions C24_process.

(** A pipeline can go through any number of cycles: if no init or destroy failed so far and it is not initialised, then init
    succeeds as soon as every callback succeeds. *)
Definition life_op (o : pop) : bool := match o with OInit | ODestroy | OProcess _ | OAsyncProcess _ => true | _ => false end.
Inductive no_failure (ask : pask) : pipe -> list pop -> pipe -> Prop :=
| nf_nil p : no_failure ask p [] p
| nf_cons p o h p1 v p2 : pipe_step ask p o = (p1, v) -> (life_op o = true -> ok_out v = true \/ p1 = p) -> no_failure ask p1 h p2 -> no_failure ask p (o :: h) p2.
Definition all_fine (ask : pask) : Prop := forall l c, (0 <= code (pr_st (ask l c)))%Z /\ (forall w, c = KDag w -> pr_flag (ask l c) = true).

Definition clean (p : pipe) : Prop := forall x, pp_flag p x = true -> pp_init p = true /\ In x (mgr_ids (c_elems (pp_cfg p))).
Lemma clean_init ask p p' v : clean p -> pipe_init ask p = (p', v) -> ok_out v = true -> clean p'.
Proof.
  intros C E Hv x Hx. destruct (pipe_init_spec ask _ _ _ E) as (Hc & Hf & _ & H & _). rewrite Hv in H. destruct H as (_ & _ & Hi & _).
  split; [exact Hi|]. rewrite Hc. destruct (Hf x) as [H|(_ & H & _)]; [|exact H]. rewrite H in Hx. now apply C in Hx.
Qed.
Lemma clean_run ask p p' v : clean p -> pipe_run ask p = (p', v) -> clean p'.
Proof.
  intros C E x Hx. destruct (pp_init p) eqn:Ei.
  - destruct (pipe_run_spec ask _ _ _ E Ei) as (H1 & H2 & _ & H3 & _). rewrite H2 in Hx. rewrite H1, H3. split; [easy|]. now apply C in Hx.
  - unfold pipe_run in E. rewrite Ei in E. injection E as <- _. now apply C.
Qed.
Lemma clean_runs ask k : forall p p' rs, clean p -> pipe_history ask (repeat ORun k) p = (p', rs) -> clean p'.
Proof.
  induction k as [|k IH]; intros p p' rs C E; cbn in E; [now injection E as <- _|].
  destruct (pipe_run ask p) as [p1 v] eqn:E1. destruct (pipe_history ask (repeat ORun k) p1) as [p2 vs] eqn:E2. injection E as <- _. eapply IH, E2. eapply clean_run, E1. exact C.
Qed.
Lemma clean_destroy ask p p' v : clean p -> pipe_destroy ask p = (p', v) -> ok_out v = true -> clean p'.
Proof.
  intros C E Hv x Hx. destruct (pipe_destroy_spec ask _ _ _ E) as (Hc & Hf & H & _). rewrite Hv in H. destruct H as (_ & _ & _ & _ & H & _).
  exfalso. destruct (Hf x) as [Hu|[Hu _]]; [|congruence]. assert (Hp : pp_flag p x = true) by congruence. apply C in Hp. destruct Hp as [_ Hp]. rewrite (H x Hp) in Hx. discriminate.
Qed.
Lemma clean_process ask n p p' v : clean p -> pipe_process ask n p = (p', v) -> ok_out v = true -> clean p'.
Proof.
  intros C E Hv. destruct (C24_process ask n p p' v E) as [(oi & _ & H & ->)|(p1 & k & p2 & rs & Ei & _ & Hh & _ & H)]; [congruence|].
  assert (C2 : clean p2) by (apply (clean_runs ask k p1 p2 rs); [apply (clean_init ask p p1 _ C Ei eq_refl)|exact Hh]).
  destruct H as [(rs0 & x & _ & H & -> & _)|(ss & d & _ & _ & Ed & [(w & -> & ->)|[H ->]])].
  - destruct x as [a| | |]; [now destruct (H a)|discriminate..].
  - apply (clean_destroy ask _ _ _ C2 Ed). apply ok_val. apply ok_val in Hv. rewrite st_sum_app in Hv. cbn in Hv. apply plus_nonneg in Hv. tauto.
  - destruct d as [a| | |]; [now destruct (H a)|discriminate..].
Qed.
Lemma clean_step ask p o p1 v : clean p -> pipe_step ask p o = (p1, v) -> (life_op o = true -> ok_out v = true \/ p1 = p) -> clean p1.
Proof.
  intros C E H. destruct o; cbn [pipe_step life_op] in *.
  - destruct (H eq_refl) as [Hv| ->]; [eapply clean_init; eassumption|exact C].
  - eapply clean_run; eassumption.
  - destruct (H eq_refl) as [Hv| ->]; [eapply clean_destroy; eassumption|exact C].
  - destruct (H eq_refl) as [Hv| ->]; [eapply clean_process; eassumption|exact C].
  - destruct (pp_init p) eqn:Ei; [eapply clean_run; eassumption|now injection E as <- _].
  - destruct (pp_init p) eqn:Ei; [now injection E as <- _|]. destruct (H eq_refl) as [Hv| ->]; [eapply clean_process; eassumption|exact C].
  - destruct (pp_init p) eqn:Ei; injection E as <- _; [|exact C]. intros x Hx. apply C in Hx. split; [easy|tauto].
  - destruct (pp_init p) eqn:Ei; injection E as <- _; [|exact C]. intros x Hx. apply C in Hx. split; [easy|tauto].
  - destruct (pp_init p) eqn:Ei; injection E as <- _; [|exact C]. intros x Hx. apply C in Hx. split; [easy|tauto].
  - destruct (pp_init p) eqn:Ei; [now injection E as <- _|]. destruct (extends (pp_cfg p) c); injection E as <- _; [|exact C]. intros x Hx. apply C in Hx. destruct Hx. congruence.
  - injection E as <- _. exact C.
Qed.

Lemma fine_loop ask f ks : all_fine ask -> forall st l, (0 <= code st)%Z -> (0 <= code (snd (add_loop ask f ks st l)))%Z.
Proof. intro A. induction ks as [|k ks IH]; intros st l H; cbn; [exact H|]. apply IH. apply plus_nonneg. split; [exact H|apply A]. Qed.
Lemma fine_life ask b t : all_fine ask -> forall s, (0 <= code (snd (fat_life ask b t s)))%Z.
Proof.
  intro A.
  assert (ML : forall cs, Forall (fun t => forall s, (0 <= code (snd (fat_life ask b t s)))%Z) cs -> forall st s, (0 <= code st)%Z ->
     exists s1 v, mgr_loop (fat_life ask b) b cs st s = (s1, Val v) /\ (0 <= code v)%Z).
  { intros cs F. induction F as [|c cs Hc F IH]; intros st s Hst; cbn; [eauto|]. destruct (fat_life ask b c s) as [[fl l] v] eqn:E. pose proof (Hc s) as Hv. rewrite E in Hv. cbn [snd] in Hv.
    rewrite check_status_ok by (rewrite assign_code; exact Hv). apply IH. rewrite assign_code. exact Hv. }
  induction t as [e|e cs IH|e cs IH] using elt_rect'; intro s.
  - cbn [fat_life snd]. rewrite wrap_code. apply A.
  - cbn [fat_life]. assert (PL : forall st s, (0 <= code st)%Z -> (0 <= code (snd (plain_loop (fat_life ask b) cs st s)))%Z).
    { clear s. induction IH as [|c cs Hc F IH]; intros st s Hst; cbn; [exact Hst|]. destruct (fat_life ask b c s) as [s1 v] eqn:E. apply IH. apply plus_nonneg. split; [exact Hst|].
      pose proof (Hc s) as Hv. now rewrite E in Hv. }
    specialize (PL st_default s code_default). destruct (plain_loop (fat_life ask b) cs st_default s) as [[fl l] v]. cbn [snd] in PL. rewrite check_status_ok by exact PL. cbn [snd]. now rewrite wrap_code.
  - cbn [fat_life]. assert (X : exists s1 v, mgr_life ask (fat_life ask b) b (Some e) cs s = (s1, Val v) /\ (0 <= code v)%Z).
    { unfold mgr_life. destruct b; [|apply ML; [exact IH|apply code_default]]. destruct (A (snd s) (KDag (Some e))) as [_ H]. rewrite (H _ eq_refl). apply ML; [exact IH|apply code_default]. }
    destruct X as ([fl l] & v & -> & Hv). rewrite check_status_ok by (rewrite assign_code; exact Hv). cbn [snd]. rewrite wrap_code, assign_code. exact Hv.
Qed.
Lemma fine_mgr ask b w cs s : all_fine ask -> exists s1 v, mgr_life ask (fat_life ask b) b w cs s = (s1, Val v) /\ (0 <= code v)%Z.
Proof.
  intro A. assert (ML : forall cs st s, (0 <= code st)%Z -> exists s1 v, mgr_loop (fat_life ask b) b cs st s = (s1, Val v) /\ (0 <= code v)%Z).
  { induction cs0 as [|c cs0 IH]; intros st s0 Hst; cbn; [eauto|]. destruct (fat_life ask b c s0) as [[fl l] v] eqn:E. pose proof (fine_life ask b c A s0) as Hv. rewrite E in Hv. cbn [snd] in Hv.
    rewrite check_status_ok by (rewrite assign_code; exact Hv). apply IH. rewrite assign_code. exact Hv. }
  unfold mgr_life. destruct b; [|apply ML, code_default]. destruct (A (snd s) (KDag w)) as [_ H]. rewrite (H _ eq_refl). apply ML, code_default.
Qed.
Lemma fine_suit ask es : all_fine ask -> forall st l, (0 <= code st)%Z -> exists l' v, suit_loop ask es st l = (l', Val v) /\ (0 <= code v)%Z.
Proof.
  intro A. induction es as [|e es IH]; intros st l H; cbn; [eauto|]. destruct (A l (KSuit e)) as [Hv _].
  rewrite check_status_ok by (rewrite assign_code; exact Hv). apply IH. now rewrite assign_code.
Qed.
Lemma fine_init ask p : all_fine ask -> pp_init p = false -> existsb (pp_flag p) (all_ids (pp_cfg p)) = false -> c_shared (pp_cfg p) <> Some false ->
  exists p', pipe_init ask p = (p', Val st_default).
Proof.
  intros A Hi Hf Hs. destruct (pipe_init ask p) as [p' o] eqn:E. destruct (pipe_init_spec ask _ _ _ E) as (_ & _ & _ & H & _).
  assert (Ho : ok_out o = true); [|rewrite Ho in H; destruct H as (-> & _); eauto]. clear H.
  unfold pipe_init in E. rewrite Hi in E.
  assert (X : exists p1 v, init_env ask p = (p1, Val v) /\ (0 <= code v)%Z).
  { destruct (fine_suit ask (all_ids (pp_cfg p)) A st_default (pp_log p) code_default) as (l' & v & E1 & Hv).
    unfold init_env. rewrite Hf, E1. destruct (c_shared (pp_cfg p)) as [[]|]; [|now destruct Hs|]; eexists; eexists; (split; [reflexivity|]); apply plus_nonneg; (split; [apply code_default|exact Hv]). }
  destruct X as (p1 & v & E1 & Hv). rewrite E1 in E. rewrite check_status_ok in E by (apply plus_nonneg; split; [apply code_default|exact Hv]).
  pose proof (fine_loop ask KPInit (c_params (pp_cfg p1)) A st_default (pp_log p1) code_default) as F1. destruct (add_loop ask KPInit _ _ _) as [l1 s1].
  pose proof (fine_loop ask KEvInit (c_events (pp_cfg p1)) A st_default l1 code_default) as F2. destruct (add_loop ask KEvInit _ _ _) as [l2 s2].
  destruct (fine_mgr ask true None (c_elems (pp_cfg p1)) (pp_flag p1, l2) A) as ([fl l3] & s3 & EM & F3).
  match type of E with context [mgr_life ?a ?b ?c ?d ?e ?f] => change (mgr_life a b c d e f) with (mgr_life ask (fat_life ask true) true None (c_elems (pp_cfg p1)) (pp_flag p1, l2)) in E end.
  rewrite EM in E. pose proof (fine_loop ask KDmInit (c_daemons (pp_cfg p1)) A st_default l3 code_default) as F4. destruct (add_loop ask KDmInit _ _ _) as [l4 s4].
  cbn [snd] in *. rewrite check_status_ok in E by (rewrite !plus_nonneg; repeat split; first [exact code_default|assumption]).
  injection E as <- <-. apply ok_val. rewrite !plus_nonneg. repeat split; first [exact code_default|assumption].
Qed.

Theorem C24_cycles : forall ask h p, no_failure ask pipe_new h p -> pp_init p = false -> c_shared (pp_cfg p) <> Some false ->
  forall ask', all_fine ask' -> exists p', pipe_init ask' p = (p', Val st_default) /\ pp_init p' = true.
Proof.
  intros ask h p NF Hi Hs ask' A.
  assert (C : clean p).
  { assert (C0 : clean pipe_new) by (intros x Hx; discriminate). revert C0. induction NF as [q|q o h0 p1 v p2 E H NF IH]; intro C0; [exact C0|].
    apply IH; [exact Hi|exact Hs|]. eapply clean_step; eassumption. }
  destruct (fine_init ask' p A Hi) as (p' & E); [|exact Hs|].
  - apply Bool.not_true_is_false. intro X. apply existsb_exists in X. destruct X as (x & _ & X). apply C in X. destruct X. congruence.
  - exists p'. split; [exact E|]. destruct (pipe_init_spec ask' _ _ _ E) as (_ & _ & _ & H & _). cbn in H. tauto.
Qed.
Print Assumptions C24_cycles.

Definition fine_resp : presp := mkPR st_default None true [].
Definition fine_ask : pask := fun _ _ => fine_resp.
Lemma fine_ask_fine : all_fine fine_ask.
Proof. intros l c. split; [cbn; unfold STATUS_OK; lia|reflexivity]. Qed.
(** Two nodes, a region with a node and a cluster with a node; two parameters, an event, a daemon. *)
Definition demo_cfg : cfg := mkC [Node 1; Region 2 [Node 3; Plain 4 [Node 5]]; Node 6] [10; 11] [20] [30] None [].
(** process stops at the first failing run (here the second) and still destroys. *)
Definition second_run_fails : pask := fun l c =>
  match c with KEngine => if Nat.eqb (List.length (filter (fun e => match fst e with KEngine => true | _ => false end) l)) 1 then mkPR (st_err "run") None false [] else mkPR st_default None false [] | _ => fine_resp end.
Example C24_nonvacuous :
  (let '(p, vs) := pipe_history fine_ask [ORun; OConfig OpRegister demo_cfg; OInit; OInit; ORun; OConfig OpTrim demo_cfg; ODestroy; ODestroy; OInit; ORun] pipe_new in
   map ok_out vs = [false; true; true; false; true; false; true; false; true; true] /\ pp_init p = true) /\
  no_failure fine_ask pipe_new [OConfig OpRegister demo_cfg; OProcess 3] (fst (pipe_history fine_ask [OConfig OpRegister demo_cfg; OProcess 3] pipe_new)) /\
  (let '(p, vs) := pipe_history second_run_fails [OConfig OpRegister demo_cfg; OProcess 5] pipe_new in
   vs = [Val st_default; Val (st_err "run")] /\ pp_init p = false /\
   List.length (filter (fun e => match fst e with KEngine => true | _ => false end) (pp_log p)) = 2).
Proof.
  split; [vm_compute; auto|]. split; [|vm_compute; auto].
  eapply nf_cons; [reflexivity|discriminate|]. eapply nf_cons; [vm_compute; reflexivity|left; reflexivity|]. vm_compute. constructor.
Qed.

(** * C56: what init and destroy call, and in which order *)

(** The nodes of an element tree, in registration (iteration) order. *)
Fixpoint tree_nodes (t : elt) : list nat := match t with Node e => [e] | Plain _ cs | Region _ cs => flat_map tree_nodes cs end.
Definition is_life_call (c : pcall) : bool := match c with KInit _ | KDestroy _ => true | _ => false end.
Lemma life_calls_nodes b t : filter is_life_call (life_calls b t) = map (if b then KInit else KDestroy) (tree_nodes t).
Proof.
  induction t as [e|e cs IH|e cs IH] using elt_rect'; cbn [life_calls tree_nodes].
  - destruct b; reflexivity.
  - induction IH as [|c cs Hc F IH]; [reflexivity|]. cbn [flat_map]. now rewrite filter_app, map_app, Hc, IH.
  - rewrite filter_app. replace (filter is_life_call (if b then [KDag (Some e)] else [])) with (@nil pcall) by (destruct b; reflexivity). cbn [app].
    induction IH as [|c cs Hc F IH]; [reflexivity|]. cbn [flat_map]. now rewrite filter_app, map_app, Hc, IH.
Qed.
Definition no_life (c : pcall) : Prop := is_life_call c = false.
Lemma filter_none {A} (f : A -> bool) l : (forall x, In x l -> f x = false) -> filter f l = [].
Proof. induction l as [|x l IH]; intro H; [reflexivity|]. cbn. rewrite (H x) by now left. apply IH. intros y Hy. apply H. now right. Qed.

(** Successful init: checks, parameters, events, then [mid], which contains the init of every node (also nested ones) exactly
    once and in order, then daemons. Successful destroy: events, daemons, then every node, then parameters. *)
Theorem C56_order : forall ask p p',
  (pipe_init ask p = (p', Val st_default) -> exists d mid, pp_log p' = pp_log p ++ d /\
     map fst d = map KSuit (all_ids (pp_cfg p)) ++ map KPInit (c_params (pp_cfg p)) ++ map KEvInit (c_events (pp_cfg p)) ++ mid ++ map KDmInit (c_daemons (pp_cfg p)) /\
     filter is_life_call mid = map KInit (flat_map tree_nodes (c_elems (pp_cfg p))) /\
     (forall c, In c mid -> is_life_call c = true \/ exists w, c = KDag w)) /\
  (pipe_destroy ask p = (p', Val st_default) -> exists d, pp_log p' = pp_log p ++ d /\
     map fst d = map KEvDestroy (c_events (pp_cfg p)) ++ map KDmDestroy (c_daemons (pp_cfg p)) ++
                 map KDestroy (flat_map tree_nodes (c_elems (pp_cfg p))) ++ map KPDestroy (c_params (pp_cfg p))).
Proof.
  intros ask p p'.
  assert (LC : forall t b c, In c (life_calls b t) -> is_life_call c = true \/ (b = true /\ exists w, c = KDag w)).
  { induction t as [e|e cs IH|e cs IH] using elt_rect'; intros b c Hc; cbn in Hc.
    - destruct Hc as [<-|[]]. left. destruct b; reflexivity.
    - apply in_flat_map in Hc. destruct Hc as (t & Ht & Hc). rewrite Forall_forall in IH. now apply (IH t Ht).
    - apply in_app_iff in Hc. destruct Hc as [Hc|Hc].
      + destruct b; [|destruct Hc]. destruct Hc as [<-|[]]. right. split; [easy|]. now eexists.
      + apply in_flat_map in Hc. destruct Hc as (t & Ht & Hc). rewrite Forall_forall in IH. now apply (IH t Ht). }
  assert (FN : forall b cs, filter is_life_call (flat_map (life_calls b) cs) = map (if b then KInit else KDestroy) (flat_map tree_nodes cs)).
  { intros b cs. induction cs as [|c cs IH]; [reflexivity|]. cbn [flat_map]. now rewrite filter_app, map_app, life_calls_nodes, IH. }
  split; intro E.
  - destruct (pipe_init_spec ask _ _ _ E) as (_ & _ & _ & H & _). cbn in H. destruct H as (_ & _ & _ & _ & _ & _ & _ & d & Hl & Hm & _).
    exists d, (mgr_calls true None (c_elems (pp_cfg p))). split; [exact Hl|]. split; [exact Hm|]. split.
    + unfold mgr_calls. rewrite filter_app. cbn [filter is_life_call app]. apply FN.
    + intros c Hc. apply in_app_iff in Hc. destruct Hc as [[<-|[]]|Hc]; [right; now eexists|]. apply in_flat_map in Hc. destruct Hc as (t & _ & Hc). apply LC in Hc. tauto.
  - destruct (pipe_destroy_spec ask _ _ _ E) as (_ & _ & H & _). cbn in H. destruct H as (_ & _ & _ & _ & _ & d & Hl & Hm & _).
    exists d. split; [exact Hl|]. rewrite Hm. unfold destroy_calls, mgr_calls. cbn [app]. rewrite <- (FN false). do 3 f_equal.
    assert (X : forall l, (forall c, In c l -> is_life_call c = true) -> filter is_life_call l = l).
    { induction l as [|y l IH]; intro H; [reflexivity|]. cbn. rewrite (H y) by now left. f_equal. apply IH. intros z Hz. apply H. now right. }
    symmetry. apply X. intros c Hc. apply in_flat_map in Hc. destruct Hc as (t & _ & Hc). apply LC in Hc. destruct Hc as [Hc|[Hc _]]; [exact Hc|discriminate].
Qed.
Print Assumptions C56_order.
Example C56_nonvacuous :
  let '(p, vs) := pipe_history fine_ask [OConfig OpRegister demo_cfg; OInit; ODestroy] pipe_new in
  vs = [Val st_default; Val st_default; Val st_default] /\
  map fst (pp_log p) =
    [KSuit 1; KSuit 2; KSuit 3; KSuit 4; KSuit 5; KSuit 6; KPInit 10; KPInit 11; KEvInit 20; KDag None; KInit 1; KDag (Some 2); KInit 3; KInit 5; KInit 6; KDmInit 30;
     KEvDestroy 20; KDmDestroy 30; KDestroy 1; KDestroy 3; KDestroy 5; KDestroy 6; KPDestroy 10; KPDestroy 11].
Proof. vm_compute. auto. Qed.

(** * C25: after a failed init *)

Lemma stuck_step ask p o p1 v : pp_init p = false -> existsb (pp_flag p) (all_ids (pp_cfg p)) = true -> pipe_step ask p o = (p1, v) ->
  pp_init p1 = false /\ existsb (pp_flag p1) (all_ids (pp_cfg p1)) = true /\ (life_op o = true -> ok_out v = false).
Proof.
  intros Hi Hf E.
  assert (IN : forall q u, pipe_init ask p = (q, u) -> pp_init q = false /\ existsb (pp_flag q) (all_ids (pp_cfg q)) = true /\ ok_out u = false).
  { intros q u Eq. destruct (pipe_init_spec ask _ _ _ Eq) as (Hc & _ & _ & H & _ & HB). destruct (HB Hf) as [HB1 HB2]. rewrite HB1 in H. rewrite Hc, HB2. repeat split; congruence. }
  assert (PR : forall n q u, pipe_process ask n p = (q, u) -> pp_init q = false /\ existsb (pp_flag q) (all_ids (pp_cfg q)) = true /\ ok_out u = false).
  { intros n q u Eq. destruct (C24_process ask n p q u Eq) as [(oi & H & _ & ->)|(p2 & k & p3 & rs & H & _)]; apply IN in H; [exact H|]. destruct H as (_ & _ & H). discriminate. }
  assert (SAME : p1 = p -> ok_out v = false -> pp_init p1 = false /\ existsb (pp_flag p1) (all_ids (pp_cfg p1)) = true /\ (life_op o = true -> ok_out v = false)).
  { intros -> Hv. auto. }
  destruct o; cbn [pipe_step] in E.
  - destruct (IN _ _ E) as (H1 & H2 & H3). auto.
  - unfold pipe_run in E. rewrite Hi in E. injection E as <- <-. auto.
  - unfold pipe_destroy in E. rewrite Hi in E. injection E as <- <-. auto.
  - destruct (PR _ _ _ E) as (H1 & H2 & H3). auto.
  - rewrite Hi in E. injection E as <- <-. auto.
  - rewrite Hi in E. destruct (PR _ _ _ E) as (H1 & H2 & H3). auto.
  - rewrite Hi in E. injection E as <- <-. auto.
  - rewrite Hi in E. injection E as <- <-. auto.
  - rewrite Hi in E. injection E as <- <-. auto.
  - rewrite Hi in E. destruct (extends (pp_cfg p) c) eqn:Ex; injection E as <- <-; (split; [easy|]); (split; [|discriminate]); [|exact Hf].
    cbn [pp_flag pp_cfg]. apply existsb_exists in Hf. destruct Hf as (x & Hx & Hxf). apply existsb_exists. exists x. split; [|exact Hxf].
    unfold extends in Ex. rewrite forallb_forall in Ex. specialize (Ex x Hx). now apply memb_in in Ex.
  - injection E as <- <-. auto.
Qed.

(** The general form: once a pipeline is not initialised but one of its elements is, it stays so for ever: every init, destroy
    and process fails in every history, whatever the callbacks then return. *)
Theorem C25_stuck_partial : forall ask h p p' vs, pp_init p = false -> existsb (pp_flag p) (all_ids (pp_cfg p)) = true -> pipe_history ask h p = (p', vs) ->
  pp_init p' = false /\ Forall2 (fun o v => life_op o = true -> ok_out v = false) h vs.
Proof.
  intros ask. induction h as [|o h IH]; intros p p' vs Hi Hf E; cbn in E.
  - injection E as <- <-. auto.
  - destruct (pipe_step ask p o) as [p1 v] eqn:E1. destruct (pipe_history ask h p1) as [p2 vs2] eqn:E2. injection E as <- <-.
    destruct (stuck_step ask _ _ _ _ Hi Hf E1) as (H1 & H2 & H3). destruct (IH _ _ _ H1 H2 E2) as [H4 H5]. split; [exact H4|]. constructor; assumption.
Qed.
Print Assumptions C25_stuck_partial.

(** So the property is false: two nodes, the second one's init fails once and never again; no later init, destroy or process
    succeeds, in any history. *)
Definition second_node_fails_once : pask := fun l c =>
  match c with KInit 2 => if existsb (fun e => match fst e with KInit 2 => true | _ => false end) l then fine_resp else mkPR (st_err "no memory") None false [] | _ => fine_resp end.
Theorem C25_refuted : exists c ask,
  (forall l k, In (KInit 2) (map fst l) -> ask l k = fine_resp) /\
  forall h p vs, pipe_history ask (OConfig OpRegister c :: OInit :: h) pipe_new = (p, vs) ->
    pp_init p = false /\ Forall2 (fun o v => life_op o = true -> ok_out v = false) (OInit :: h) (tl vs).
Proof.
  exists (mkC [Node 1; Node 2] [] [] [] None []), second_node_fails_once. split.
  - intros l k H. unfold second_node_fails_once. destruct k as [e|r|[|[|[|e]]]|e|k|k|k s|k|k|k|k|d|d| |e]; try reflexivity.
    apply in_map_iff in H. destruct H as ([c r] & Hc & Hin). cbn in Hc. subst c.
    assert (X : existsb (fun e => match fst e with KInit 2 => true | _ => false end) l = true) by (apply existsb_exists; eexists; split; [exact Hin|reflexivity]). now rewrite X.
  - intros h p vs E.
    assert (E0 : exists p1, pipe_history second_node_fails_once [OConfig OpRegister (mkC [Node 1; Node 2] [] [] [] None []); OInit] pipe_new = (p1, [Val st_default; Val (st_err "no memory")]) /\
       pp_init p1 = false /\ existsb (pp_flag p1) (all_ids (pp_cfg p1)) = true).
    { eexists. split; [vm_compute; reflexivity|]. vm_compute. auto. }
    destruct E0 as (p1 & E0 & Hi & Hf).
    change (OConfig OpRegister (mkC [Node 1; Node 2] [] [] [] None []) :: OInit :: h) with ([OConfig OpRegister (mkC [Node 1; Node 2] [] [] [] None []); OInit] ++ h) in E.
    assert (AP : forall h1 h2 q, pipe_history second_node_fails_once (h1 ++ h2) q = let '(q1, v1) := pipe_history second_node_fails_once h1 q in let '(q2, v2) := pipe_history second_node_fails_once h2 q1 in (q2, v1 ++ v2)).
    { induction h1 as [|o h1 IH]; intros h2 q; cbn [app pipe_history]; [now destruct (pipe_history _ h2 q)|].
      destruct (pipe_step second_node_fails_once q o) as [q1 v]. rewrite IH. destruct (pipe_history _ h1 q1) as [q2 v2]. now destruct (pipe_history _ h2 q2). }
    rewrite AP, E0 in E. destruct (pipe_history second_node_fails_once h p1) as [p2 v2] eqn:E2. injection E as <- <-.
    destruct (C25_stuck_partial _ _ _ _ _ Hi Hf E2) as [H1 H2]. split; [exact H1|]. cbn [tl app]. constructor; [intros _; reflexivity|exact H2].
Qed.
Print Assumptions C25_refuted.

(** When retrying works: init failed because of the shared pool, an unsuitable element or a cyclic graph, i.e. before any
    element was initialised; the pipeline may be reconfigured in between. *)
Theorem C25_retry_partial : forall ask p p' o, pp_init p = false -> (forall x, pp_flag p x = false) -> pipe_init ask p = (p', o) ->
  c_shared (pp_cfg p) = Some false \/ (exists e, In e (all_ids (pp_cfg p)) /\ forall l, (code (pr_st (ask l (KSuit e))) < 0)%Z) \/ (forall l, pr_flag (ask l (KDag None)) = false) ->
  ok_out o = false /\ pp_init p' = false /\
  forall op c, extends (pp_cfg p') c = true -> c_shared c <> Some false -> forall ask', all_fine ask' ->
    exists p2, pipe_history ask' [OConfig op c; OInit] p' = (p2, [Val st_default; Val st_default]) /\ pp_init p2 = true.
Proof.
  intros ask p p' o Hi Hf E HC.
  assert (X : ok_out o = false /\ pp_flag p' = pp_flag p \/ ok_out o = false /\ forall x, pp_flag p' x = pp_flag p x).
  { unfold pipe_init in E. rewrite Hi in E. destruct (init_env ask p) as [p1 o1] eqn:E1.
    destruct (init_env_spec ask _ _ _ E1) as (_ & FL & C1 & (d & L & FF & _ & OK) & OKE & _).
    destruct o1 as [v|m| |]; try (injection E as <- <-; left; split; [reflexivity|exact FL]).
    destruct (Z_lt_ge_dec (code v) 0) as [Hv|Hv].
    - left. rewrite plus_err, check_status_err in E by exact Hv. destruct (code v =? -996)%Z; injection E as <- <-; (split; [|exact FL]); [reflexivity|now apply bad_val].
    - assert (Hok : ok_out (Val v) = true) by (apply ok_val; lia). destruct (OKE Hok) as (_ & NS & _). destruct (OK Hok) as (M & A).
      destruct HC as [HC|[(e & He & HC)|HC]]; [contradiction| |].
      + exfalso. assert (I : In (KSuit e) (map fst d)) by (rewrite M; now apply in_map). apply in_map_iff in I. destruct I as ([c r] & Hc & I). cbn in Hc. subst c.
        rewrite Forall_forall in A. specialize (A _ I). cbn in A. apply in_split in I. destruct I as (a & b & I). rewrite (FF a _ r b I) in A. specialize (HC (pp_log p ++ a)). lia.
      + right. rewrite plus_ok, check_status_ok in E by (first [apply code_default|lia]).
        destruct (add_loop ask KPInit _ _ _) as [l1 s1]. destruct (add_loop ask KEvInit _ _ _) as [l2 s2].
        match type of E with context [mgr_life ?a ?b ?c ?d ?e ?f] => destruct (mgr_life a b c d e f) as [[fl l3] o3] eqn:EM end.
        destruct (mgr_life_spec ask true _ None _ (fat_life_all ask true _) _ _ _ _ _ EM) as (x3 & _ & _ & _ & _ & _ & D). destruct (D eq_refl (HC l2)) as [-> Hfl].
        destruct (add_loop ask KDmInit _ _ _) as [l4 s4].
        set (st := st_plus (st_plus (st_plus (st_plus st_default s1) s2) (st_err "it is not a dag struct")) s4) in *.
        assert (Hst : (code st < 0)%Z).
        { destruct (Z_lt_ge_dec (code st) 0) as [H|H]; [exact H|]. assert (Y : (0 <= code st)%Z) by lia. unfold st in Y. rewrite !plus_nonneg in Y. destruct Y as ((_ & Y) & _). cbn in Y. unfold STATUS_ERR in Y. lia. }
        rewrite check_status_err in E by exact Hst. destruct (code st =? -996)%Z; injection E as <- <-; cbn [pp_flag]; (split; [first [reflexivity|now apply bad_val]|]); intro x; rewrite Hfl; now rewrite FL. }
  assert (X' : ok_out o = false /\ forall x, pp_flag p' x = false).
  { destruct X as [[H1 H2]|[H1 H2]]; (split; [exact H1|]); intro x; rewrite H2; apply Hf. }
  clear X. destruct X' as [Ho HF]. destruct (pipe_init_spec ask _ _ _ E) as (_ & _ & _ & H & _). rewrite Ho in H. rewrite Hi in H.
  split; [exact Ho|]. split; [exact H|]. intros op c Hex Hsh ask' A. cbn [pipe_history pipe_step]. rewrite H, Hex.
  set (q := mkPipe false (pp_flag p') c (pp_pool p') (pp_cancel p') (pp_log p')).
  destruct (fine_init ask' q A eq_refl) as (p2 & E2); [|exact Hsh|].
  - apply Bool.not_true_is_false. intro X. apply existsb_exists in X. destruct X as (x & _ & X). unfold q in X. cbn [pp_flag] in X. rewrite HF in X. discriminate.
  - rewrite E2. exists p2. split; [reflexivity|]. destruct (pipe_init_spec ask' _ _ _ E2) as (_ & _ & _ & Y & _). cbn in Y. tauto.
Qed.
Print Assumptions C25_retry_partial.
Definition cyclic_ask : pask := fun _ c => match c with KDag None => mkPR st_default None false [] | _ => fine_resp end.
Example C25_retry_nonvacuous : let p := mkPipe false (fun _ => false) demo_cfg false false [] in
  (forall l, pr_flag (cyclic_ask l (KDag None)) = false) /\ snd (pipe_init cyclic_ask p) = Val (st_err "it is not a dag struct").
Proof. split; [reflexivity|vm_compute; reflexivity]. Qed.

(** * C27: parameters around a run *)

(** Every accepted run first calls setup of every parameter, in order, before any element runs. If one of them fails, no
    element runs and that (first) error is the result. Otherwise, unless the engine throws (C16), the elements run, and at the
    end reset is called once for every parameter, also those created during the run, with the status that run returns. *)
Theorem C27_run : forall ask p p' o, pp_init p = true -> pipe_run ask p = (p', o) ->
  exists ds rest, pp_log p' = pp_log p ++ ds ++ rest /\ map fst ds = map KPSetup (c_params (pp_cfg p)) /\
    ((exists k r, In (k, r) ds /\ (code (pr_st r) < 0)%Z) -> rest = [] /\ pp_cfg p' = pp_cfg p /\ ok_out o = false /\
        exists a k r b, ds = a ++ (k, r) :: b /\ Forall (fun e => (0 <= code (pr_st (snd e)))%Z) a /\ (code (pr_st r) < 0)%Z /\
          o = if (code (pr_st r) =? -996)%Z then Thrown (what_of (info (pr_st r))) else Val (pr_st r)) /\
    (Forall (fun e => (0 <= code (pr_st (snd e)))%Z) ds -> exists a end_calls, rest = (KEngine, a) :: end_calls /\
        c_params (pp_cfg p') = c_params (pp_cfg p) ++ pr_new a /\
        ((exists m, pr_thr a = Some m /\ o = Thrown m /\ end_calls = []) \/
         (pr_thr a = None /\ exists st, o = Val st /\
            ((code (pr_st a) < 0)%Z -> st = pr_st a) /\
            ((0 <= code (pr_st a))%Z -> c_held (pp_cfg p) = [] -> (0 <= code st)%Z) /\
            map fst end_calls = map KHeld (c_held (pp_cfg p)) ++ map KEvWait (c_events (pp_cfg p)) ++ map (fun k => KPReset k st) (c_params (pp_cfg p')))) ).
Proof.
  intros ask p p' o Hi E. destruct (pipe_run_spec ask _ _ _ E Hi) as (_ & _ & _ & _ & _ & ds & [M _] & H).
  destruct H as [(s & F & L & C & _ & Ho)|(F & HP & _ & H)].
  - exists ds, []. split; [now rewrite app_nil_r|]. split; [exact M|].
    assert (SP : exists a b, ds = a ++ s :: b /\ Forall (fun e => (0 <= code (pr_st (snd e)))%Z) a).
    { clear -F. revert F. induction ds as [|x ds IH]; intro F; [discriminate|]. cbn in F. destruct (isErr (pr_st (snd x))) eqn:X.
      - injection F as ->. exists [], ds. auto.
      - destruct (IH F) as (a & b & -> & A). exists (x :: a), b. split; [easy|]. constructor; [now apply isErr_ge|exact A]. }
    destruct SP as (a & b & -> & A). destruct s as [k r]. apply find_some in F. destruct F as [_ F]. apply isErr_lt in F. cbn [snd] in *. split.
    + intros _. split; [easy|]. split; [exact C|]. split; [subst o; destruct (code (pr_st r) =? -996)%Z; [reflexivity|now apply bad_val]|].
      exists a, k, r, b. auto.
    + intro X. apply Forall_app in X. destruct X as [_ X]. inversion X; subst. cbn in *. lia.
  - assert (AOK : Forall (fun e => (0 <= code (pr_st (snd e)))%Z) ds).
    { apply Forall_forall. intros e He. apply isErr_ge. now apply (find_none _ _ F). }
    cbv zeta in H, HP. set (a := ask (pp_log p ++ ds) KEngine) in *.
    assert (NE : (exists k r, In (k, r) ds /\ (code (pr_st r) < 0)%Z) -> False).
    { intros (k & r & Hin & Hr). rewrite Forall_forall in AOK. specialize (AOK _ Hin). cbn in AOK. lia. }
    destruct H as [(m & Ht & Ho & L)|(Ht & dh & dw & dr & st & Ho & Hst & [S _] & MH & L)].
    + exists ds, [(KEngine, a)]. split; [exact L|]. split; [exact M|]. split; [intro X; now destruct (NE X)|]. intros _. exists a, []. split; [easy|]. split; [exact HP|]. left. eauto.
    + exists ds, ((KEngine, a) :: dh ++ dw ++ dr). split; [exact L|]. split; [exact M|]. split; [intro X; now destruct (NE X)|]. intros _.
      exists a, (dh ++ dw ++ dr). split; [easy|]. split; [exact HP|]. right. split; [exact Ht|]. exists st. split; [exact Ho|]. split; [|split].
      * intro Ha. rewrite Hst. rewrite assign_err by (first [apply code_default|exact Ha]). apply st_sum_err. now apply isErr_lt.
      * intros Ha Hh. rewrite Hh in MH. destruct dh; [|discriminate]. rewrite Hst. cbn. rewrite assign_code. exact Ha.
      * rewrite HP. exact S.
Qed.
Print Assumptions C27_run.
Definition new_param_ask : pask := fun l c => match c with KEngine => mkPR (st_err "node") None false [12] | _ => fine_resp end.
Example C27_nonvacuous :
  let p := mkPipe true (fun _ => true) demo_cfg true false [] in
  pp_init p = true /\ snd (pipe_run new_param_ask p) = Val (st_err "node") /\
  map fst (pp_log (fst (pipe_run new_param_ask p))) =
    [KPSetup 10; KPSetup 11; KEngine; KEvWait 20; KPReset 10 (st_err "node"); KPReset 11 (st_err "node"); KPReset 12 (st_err "node")].
Proof. vm_compute. auto. Qed.

(** * C16: a crash in an element, for each engine *)

(** [r]: what engine->run() did; [a]: the same as an answer to the pipeline. *)
Definition answers (r : eng_result) (a : presp) : Prop :=
  match r with EReturn s => pr_thr a = None /\ pr_st a = s | EThrow m => pr_thr a = Some (what_of m) end.
Definition end_call (c : pcall) : Prop := match c with KHeld _ | KEvWait _ | KPReset _ _ => True | _ => False end.
Definition setups_fine (ask : pask) : Prop := forall l k, (0 <= code (pr_st (ask l (KPSetup k))))%Z.

(** An engine that throws: run throws, and none of the end-of-run actions is done. *)
Lemma throwing_engine ask p p' o m : pp_init p = true -> setups_fine ask -> (forall l, pr_thr (ask l KEngine) = Some m) -> pipe_run ask p = (p', o) ->
  o = Thrown m /\ exists d, pp_log p' = pp_log p ++ d /\ (forall c, In c (map fst d) -> ~ end_call c) /\ In KEngine (map fst d).
Proof.
  intros Hi HS HT E. destruct (pipe_run_spec ask _ _ _ E Hi) as (_ & _ & _ & _ & _ & ds & [M FF] & H).
  assert (AOK : forall e, In e ds -> isErr (pr_st (snd e)) = false).
  { intros [c r] He. assert (Hc : In c (map fst ds)) by (now apply (in_map fst) in He). rewrite M in Hc. apply in_map_iff in Hc. destruct Hc as (k & <- & _).
    apply in_split in He. destruct He as (a & b & ->). rewrite (FF a _ r b eq_refl). apply isErr_ge, HS. }
  destruct H as [(s & F & _)|(_ & _ & _ & H)].
  - apply find_some in F. destruct F as [F1 F2]. rewrite (AOK _ F1) in F2. discriminate.
  - destruct H as [(m' & Ht & -> & L)|(Ht & _)]; rewrite HT in Ht; [|discriminate]. injection Ht as ->. split; [easy|].
    eexists. split; [exact L|]. rewrite map_app, M. split.
    + intros c Hc. apply in_app_iff in Hc. destruct Hc as [Hc|[<-|[]]]; [|intros []]. apply in_map_iff in Hc. destruct Hc as (k & <- & _). intros [].
    + apply in_app_iff. right. now left.
Qed.

(** Topological engine: whenever the first failing element crashed, run throws out of GPipeline::run and parameters are not
    reset, events not waited for, held elements not collected. *)
Theorem C16_topo_refuted : forall res pre f q tr r ask p p' o,
  (forall e, In e pre -> (0 <= code (res e))%Z) -> code (res f) = STATUS_CRASH -> topo_run res (pre ++ f :: q) st_default = (tr, r) ->
  pp_init p = true -> setups_fine ask -> (forall l, answers r (ask l KEngine)) -> pipe_run ask p = (p', o) ->
  o = Thrown (what_of (info (res f))) /\ exists d, pp_log p' = pp_log p ++ d /\ (forall c, In c (map fst d) -> ~ end_call c) /\ In KEngine (map fst d).
Proof.
  intros res pre f q tr r ask p p' o Hpre Hf Et Hi HS HA E.
  assert (X : r = EThrow (info (res f))).
  { clear -Hpre Hf Et. revert tr Et. induction pre as [|e pre IH]; intros tr Et; cbn in Et.
    - rewrite plus_err, check_status_err in Et by (rewrite Hf; reflexivity). rewrite Hf in Et. now injection Et as _ <-.
    - rewrite plus_ok in Et by (apply Hpre; now left). cbn in Et. destruct (topo_run res (pre ++ f :: q) st_default) as [t2 o2] eqn:E2. injection Et as _ <-.
      eapply IH; [|reflexivity]. intros x Hx. apply Hpre. now right. }
  subst r. apply (throwing_engine ask p p' o _ Hi HS HA E).
Qed.
Print Assumptions C16_topo_refuted.

(** Static engine: every run that reaches its check of a crash throws, with the same consequence. *)
Theorem C16_static_refuted : forall inl mat ls s m ask p p' o,
  srun (s_init inl mat) ls = Some s -> s_out s = Some (EThrow m) ->
  pp_init p = true -> setups_fine ask -> (forall l, answers (EThrow m) (ask l KEngine)) -> pipe_run ask p = (p', o) ->
  o = Thrown (what_of m) /\ exists d, pp_log p' = pp_log p ++ d /\ (forall c, In c (map fst d) -> ~ end_call c) /\ In KEngine (map fst d).
Proof. intros inl mat ls s m ask p p' o _ _ Hi HS HA E. apply (throwing_engine ask p p' o _ Hi HS HA E). Qed.
Print Assumptions C16_static_refuted.

Definition crash_status : status := mkStatus STATUS_CRASH "boom".
Definition crash_ask : pask := fun _ c => match c with KEngine => mkPR st_default (Some (what_of "boom")) false [] | _ => fine_resp end.
Example C16_refuted_nonvacuous :
  topo_run (fun e => if Nat.eqb e 1 then crash_status else st_default) [0; 1; 2] st_default = ([GStart 0; GFinish 0 st_default; GStart 1; GFinish 1 crash_status], EThrow "boom") /\
  (exists ls s, srun (s_init (fun _ => false) [[0]; [1; 2]]) ls = Some s /\ s_out s = Some (EThrow "boom") /\ In (GFinish 1 crash_status) (s_tr s)) /\
  setups_fine crash_ask /\ (forall l, answers (EThrow "boom") (crash_ask l KEngine)) /\
  let p := mkPipe true (fun _ => true) demo_cfg true false [] in
  snd (pipe_run crash_ask p) = Thrown " | boom" /\ map fst (pp_log (fst (pipe_run crash_ask p))) = [KPSetup 10; KPSetup 11; KEngine].
Proof.
  split; [vm_compute; reflexivity|]. split.
  - exists [SMain st_default; SStart 0; SFinish 0 st_default; SMain st_default; SMain st_default; SMain st_default; SMain st_default;
            SStart 1; SStart 2; SFinish 2 st_default; SFinish 1 crash_status; SMain st_default; SMain st_default; SMain st_default].
    eexists. split; [vm_compute; reflexivity|]. vm_compute. split; [reflexivity|tauto].
  - split; [intros l k; cbn; unfold STATUS_OK; lia|]. split; [reflexivity|]. vm_compute. auto.
Qed.

(** Dynamic engine, for every schedule: run returns a status, which is an error whenever an element crashed (or failed), and
    all end-of-run actions are done, with that status. Holds for the general path of the engine and, since they too return
    a status, for its serial and parallel paths (C10). *)
Theorem C16_dynamic_partial : forall c ls s st ask p p' o,
  wf (c_g c) -> acyclic (c_g c) -> exec c ls s -> d_out s = Some st ->
  pp_init p = true -> setups_fine ask -> (forall l, pr_thr (ask l KEngine) = None /\ pr_st (ask l KEngine) = st) -> pipe_run ask p = (p', o) ->
  exists v d, o = Val v /\ pp_log p' = pp_log p ++ d /\
    (forall e r, In (GFinish e r) (trace s) -> code r = STATUS_CRASH -> (code v < 0)%Z) /\
    map fst d = map KPSetup (c_params (pp_cfg p)) ++ [KEngine] ++
      map KHeld (c_held (pp_cfg p)) ++ map KEvWait (c_events (pp_cfg p)) ++ map (fun k => KPReset k v) (c_params (pp_cfg p')).
Proof.
  intros c ls s st ask p p' o Hwf Ha Hex Hout Hi HS HA E.
  destruct (C27_run ask p p' o Hi E) as (ds & rest & L & M & _ & H).
  assert (AOK : Forall (fun e => (0 <= code (pr_st (snd e)))%Z) ds).
  { destruct (pipe_run_spec ask _ _ _ E Hi) as (_ & _ & _ & _ & _ & ds' & [M' FF] & H').
    assert (AOK' : forall e, In e ds' -> (0 <= code (pr_st (snd e)))%Z).
    { intros [k r] He. assert (Hc : In k (map fst ds')) by (now apply (in_map fst) in He). rewrite M' in Hc. apply in_map_iff in Hc. destruct Hc as (k' & <- & _).
      apply in_split in He. destruct He as (a & b & ->). rewrite (FF a _ r b eq_refl). apply HS. }
    assert (PX : exists r', pp_log p' = pp_log p ++ ds' ++ r').
    { destruct H' as [(x & _ & L' & _)|(_ & _ & _ & [(m & _ & _ & L')|(_ & dh & dw & dr & v & _ & _ & _ & _ & L')])]; rewrite L'; [exists []; now rewrite app_nil_r|eexists; reflexivity|eexists; reflexivity]. }
    destruct PX as (r' & PX). rewrite L in PX. apply app_inv_head in PX.
    assert (Hlen : List.length ds = List.length ds') by (rewrite <- (map_length fst ds), <- (map_length fst ds'), M, M'; reflexivity).
    assert (ds = ds').
    { clear -PX Hlen. revert ds' Hlen PX. induction ds as [|x ds IH]; intros [|y ds'] Hlen PX; cbn in *; try discriminate; [reflexivity|]. injection PX as -> PX. f_equal. now apply IH; [injection Hlen|]. }
    subst ds'. apply Forall_forall. exact AOK'. }
  destruct (H AOK) as (a & ec & -> & Hpar & H').
  assert (Ea : a = ask (pp_log p ++ ds) KEngine \/ pr_thr a = None /\ pr_st a = st).
  { destruct (pipe_run_spec ask _ _ _ E Hi) as (_ & _ & _ & _ & _ & ds' & [M' FF] & H2).
    assert (Hlen : List.length ds = List.length ds') by (rewrite <- (map_length fst ds), <- (map_length fst ds'), M, M'; reflexivity).
    assert (SPL : forall (x y u w : plog), List.length x = List.length y -> x ++ u = y ++ w -> x = y /\ u = w).
    { induction x as [|x0 x IH]; intros [|y0 y] u w Hl Eq; cbn in *; try discriminate; [auto|]. injection Eq as -> Eq. destruct (IH y u w) as [-> ->]; [now injection Hl|exact Eq|auto]. }
    destruct H2 as [(x & _ & L' & _)|(_ & _ & _ & [(m & _ & _ & L')|(_ & dh & dw & dr & v & _ & _ & _ & _ & L')])]; rewrite L' in L; apply app_inv_head in L.
    - rewrite <- (app_nil_r ds') in L. apply SPL in L; [|now symmetry]. destruct L. discriminate.
    - apply SPL in L; [|now symmetry]. destruct L as [-> L]. injection L as <- _. now left.
    - apply SPL in L; [|now symmetry]. destruct L as [-> L]. cbn in L. injection L as <- _. now left. }
  assert (Ea' : pr_thr a = None /\ pr_st a = st) by (destruct Ea as [->|Ea]; [apply HA|exact Ea]). destruct Ea' as [Et Es].
  destruct H' as [(m & Hm & _)|(_ & v & -> & Hv1 & Hv2 & ME)]; [congruence|].
  exists v, (ds ++ (KEngine, a) :: ec). split; [easy|]. split; [exact L|]. split.
  - intros e r Hin Hr. destruct (C09_error_reported c ls s Hwf Ha Hex) as (_ & H9 & _).
    assert (Hst : (code st < 0)%Z) by (apply (H9 st e r Hout Hin); rewrite Hr; reflexivity). rewrite Es in Hv1. rewrite (Hv1 Hst). exact Hst.
  - rewrite map_app. cbn [map fst]. rewrite M, ME. reflexivity.
Qed.
Print Assumptions C16_dynamic_partial.

(** * C57: an initialised pipeline has its thread pool *)

(** False after a failed destroy: the unique pool is deleted first, the pipeline stays initialised, and the next run is
    accepted and handed to the engine with no pool. *)
Definition param_destroy_fails : pask := fun _ c => match c with KPDestroy 10 => mkPR (st_err "busy") None true [] | _ => fine_resp end.
Theorem C57_failed_destroy_refuted : exists c ask p vs, c_shared c = None /\
  pipe_history ask [OConfig OpRegister c; OInit; ODestroy; ORun] pipe_new = (p, vs) /\
  map ok_out vs = [true; true; false; true] /\ pp_pool p = false /\ (exists l r, pp_log p = l ++ [(KPDestroy 10, r); (KPDestroy 11, fine_resp)] ++ [(KPSetup 10, fine_resp); (KPSetup 11, fine_resp); (KEngine, fine_resp); (KEvWait 20, fine_resp); (KPReset 10 st_default, fine_resp); (KPReset 11 st_default, fine_resp)]).
Proof.
  exists demo_cfg, param_destroy_fails. eexists. eexists. split; [reflexivity|]. split; [vm_compute; reflexivity|]. split; [reflexivity|]. split; [reflexivity|].
  match goal with |- exists l r, ?L = _ => exists (firstn 22 L); eexists; vm_compute; reflexivity end.
Qed.
Print Assumptions C57_failed_destroy_refuted.

Definition pooled (p : pipe) : Prop := pp_init p = true -> c_shared (pp_cfg p) = None -> pp_pool p = true.
Lemma pooled_run ask p p' v : pooled p -> pipe_run ask p = (p', v) -> pooled p'.
Proof.
  intros P E H1 H2. destruct (pp_init p) eqn:Ei.
  - destruct (pipe_run_spec ask _ _ _ E Ei) as (_ & _ & Hp & _ & Hs & _). rewrite Hp. apply P; [exact Ei|congruence].
  - unfold pipe_run in E. rewrite Ei in E. injection E as <- _. congruence.
Qed.
Theorem C57_pool_partial : forall ask h p, no_failure ask pipe_new h p -> pp_init p = true -> c_shared (pp_cfg p) = None -> pp_pool p = true.
Proof.
  intros ask h p NF. change (pooled p). assert (P0 : pooled pipe_new) by (intros H; discriminate). revert P0.
  induction NF as [q|q o h0 p1 v p2 E H NF IH]; intro P0; [exact P0|]. apply IH. clear IH NF.
  assert (IN : forall x y w, pipe_init ask x = (y, w) -> ok_out w = true -> pooled y).
  { intros x y w Ex Hw _ H2. destruct (pipe_init_spec ask _ _ _ Ex) as (Hc & _ & _ & K & _). rewrite Hw in K. rewrite Hc in H2. tauto. }
  assert (DS : forall x y w, pipe_destroy ask x = (y, w) -> ok_out w = true -> pooled y).
  { intros x y w Ex Hw H1 _. destruct (pipe_destroy_spec ask _ _ _ Ex) as (_ & _ & K & _). rewrite Hw in K. destruct K as (_ & _ & K & _). congruence. }
  assert (PR : forall n x y w, pipe_process ask n x = (y, w) -> ok_out w = true -> pooled y).
  { intros n x y w Ex Hw. destruct (C24_process ask n x y w Ex) as [(oi & _ & K & ->)|(x1 & k & x2 & rs & _ & _ & _ & _ & K)]; [congruence|].
    destruct K as [(rs0 & z & _ & K & -> & _)|(ss & d & _ & _ & Ed & [(u & -> & ->)|[K ->]])].
    - destruct z as [a| | |]; [now destruct (K a)|discriminate..].
    - apply (DS _ _ _ Ed). apply ok_val. apply ok_val in Hw. rewrite st_sum_app in Hw. cbn in Hw. apply plus_nonneg in Hw. tauto.
    - destruct d as [a| | |]; [now destruct (K a)|discriminate..]. }
  destruct o; cbn [pipe_step life_op] in *.
  - destruct (H eq_refl) as [Hv| ->]; [eapply IN; eassumption|exact P0].
  - eapply pooled_run; eassumption.
  - destruct (H eq_refl) as [Hv| ->]; [eapply DS; eassumption|exact P0].
  - destruct (H eq_refl) as [Hv| ->]; [eapply PR; eassumption|exact P0].
  - destruct (pp_init q) eqn:Ei; [eapply pooled_run; eassumption|now injection E as <- _].
  - destruct (pp_init q) eqn:Ei; [now injection E as <- _|]. destruct (H eq_refl) as [Hv| ->]; [eapply PR; eassumption|exact P0].
  - destruct (pp_init q) eqn:Ei; injection E as <- _; [|exact P0]. intros _ H2. now apply P0.
  - destruct (pp_init q) eqn:Ei; injection E as <- _; [|exact P0]. intros _ H2. now apply P0.
  - destruct (pp_init q) eqn:Ei; injection E as <- _; [|exact P0]. intros _ H2. now apply P0.
  - destruct (pp_init q) eqn:Ei; [now injection E as <- _|]. destruct (extends (pp_cfg q) c); injection E as <- _; [|exact P0]. intros H1 _. discriminate.
  - injection E as <- _. exact P0.
Qed.
Print Assumptions C57_pool_partial.
Example C57_nonvacuous : exists p, no_failure fine_ask pipe_new [OConfig OpRegister demo_cfg; OInit; ORun; ODestroy; OInit] p /\ pp_init p = true /\ pp_pool p = true.
Proof.
  eexists. split.
  - eapply nf_cons; [reflexivity|discriminate|]. eapply nf_cons; [vm_compute; reflexivity|left; reflexivity|]. eapply nf_cons; [vm_compute; reflexivity|discriminate|].
    eapply nf_cons; [vm_compute; reflexivity|left; reflexivity|]. eapply nf_cons; [vm_compute; reflexivity|left; reflexivity|]. constructor.
  - auto.
Qed.

(** * C58: a failed init reports a status and leaves nothing running *)

(** False, twice. A crash in the init of a registered node is thrown out of GPipeline::init; and a failing node or parameter
    does not keep the daemons from being started, after which destroy, the only call that stops them, is refused. *)
Definition node_init_crashes : pask := fun _ c => match c with KInit 1 => mkPR crash_status None true [] | _ => fine_resp end.
Definition node_init_fails : pask := fun _ c => match c with KInit 1 => mkPR (st_err "no") None true [] | _ => fine_resp end.
Theorem C58_crash_escapes_refuted : exists c ask p vs,
  pipe_history ask [OConfig OpRegister c; OInit] pipe_new = (p, vs) /\ vs = [Val st_default; Thrown (what_of "boom")].
Proof. exists demo_cfg, node_init_crashes. eexists. eexists. split; vm_compute; reflexivity. Qed.
Theorem C58_daemons_left_refuted : exists c ask p vs,
  pipe_history ask [OConfig OpRegister c; OInit; ODestroy] pipe_new = (p, vs) /\ map ok_out vs = [true; false; false] /\
  In (KDmInit 30) (map fst (pp_log p)) /\ ~ In (KDmDestroy 30) (map fst (pp_log p)).
Proof.
  exists demo_cfg, node_init_fails. eexists. eexists. split; [vm_compute; reflexivity|]. split; [reflexivity|]. split; [vm_compute; tauto|].
  vm_compute. intro H. repeat (destruct H as [H|H]; [discriminate|]). exact H.
Qed.
(** What does hold: init throws only if some callback reported a crash or some element was already initialised, and a init
    that fails in its preparation (pool, checkSuitable) has called nothing but checkSuitable. *)
Lemma mgr_throw ask b who cs s s' m : (forall l c, code (pr_st (ask l c)) <> STATUS_CRASH) -> mgr_life ask (fat_life ask b) b who cs s = (s', Thrown m) -> False.
Proof.
  intros NC.
  assert (ML : forall cs, Forall (fun t => forall s, code (snd (fat_life ask b t s)) <> STATUS_CRASH) cs -> forall st s s' o, mgr_loop (fat_life ask b) b cs st s = (s', o) ->
     exists v, o = Val v /\ (code st <> STATUS_CRASH -> code v <> STATUS_CRASH)).
  { intros l F. induction F as [|c l Hc F IH]; intros st s0 s1 o E; cbn in E; [injection E as _ <-; eauto|]. destruct (fat_life ask b c s0) as [[fl lg] v] eqn:Ef.
    pose proof (Hc s0) as Hv. rewrite Ef in Hv. cbn [snd] in Hv. destruct (Z_lt_ge_dec (code v) 0) as [Hn|Hn].
    - rewrite check_status_err in E by (rewrite assign_code; exact Hn). rewrite assign_code in E. destruct (code v =? -996)%Z eqn:X; [apply Z.eqb_eq in X; unfold STATUS_CRASH in Hv; lia|].
      injection E as _ <-. eexists. split; [reflexivity|]. now rewrite assign_code.
    - rewrite check_status_ok in E by (rewrite assign_code; lia). destruct (IH _ _ _ _ E) as (w & -> & Hw). exists w. split; [easy|]. intros _. apply Hw. now rewrite assign_code. }
  assert (FL : forall t s, code (snd (fat_life ask b t s)) <> STATUS_CRASH).
  { induction t as [e|e l IH|e l IH] using elt_rect'; intro s0.
    - cbn [fat_life snd]. rewrite wrap_code. apply NC.
    - cbn [fat_life]. assert (PL : forall st s, code st <> STATUS_CRASH -> code (snd (plain_loop (fat_life ask b) l st s)) <> STATUS_CRASH).
      { clear s0. induction IH as [|c l Hc F IH]; intros st s0 Hst; cbn; [exact Hst|]. destruct (fat_life ask b c s0) as [s1 v] eqn:E. apply IH.
        pose proof (Hc s0) as Hv. rewrite E in Hv. cbn [snd] in Hv. unfold st_plus. destruct (negb (isErr st) && isErr v)%bool; assumption. }
      specialize (PL st_default s0). destruct (plain_loop (fat_life ask b) l st_default s0) as [[fl lg] v]. cbn [snd] in PL. assert (Hv : code v <> STATUS_CRASH) by (apply PL; discriminate).
      destruct (Z_lt_ge_dec (code v) 0) as [Hn|Hn].
      + rewrite check_status_err by exact Hn. destruct (code v =? -996)%Z eqn:X; [apply Z.eqb_eq in X; unfold STATUS_CRASH in Hv; lia|]. cbn [snd]. now rewrite wrap_code.
      + rewrite check_status_ok by lia. cbn [snd]. now rewrite wrap_code.
    - cbn [fat_life]. assert (X : exists s1 v, mgr_life ask (fat_life ask b) b (Some e) l s0 = (s1, Val v) /\ code v <> STATUS_CRASH).
      { unfold mgr_life. destruct b.
        - destruct (pr_flag (ask (snd s0) (KDag (Some e)))).
          + destruct (mgr_loop (fat_life ask true) true l st_default (fst s0, snd s0 ++ [(KDag (Some e), ask (snd s0) (KDag (Some e)))])) as [s1 o] eqn:E. destruct (ML l IH _ _ _ _ E) as (v & -> & Hv). exists s1, v. split; [easy|]. apply Hv. discriminate.
          + eexists. eexists. split; [reflexivity|]. discriminate.
        - destruct (mgr_loop (fat_life ask false) false l st_default s0) as [s1 o] eqn:E. destruct (ML l IH _ _ _ _ E) as (v & -> & Hv). exists s1, v. split; [easy|]. apply Hv. discriminate. }
      destruct X as ([fl lg] & v & -> & Hv). destruct (Z_lt_ge_dec (code v) 0) as [Hn|Hn].
      + rewrite check_status_err by (rewrite assign_code; exact Hn). rewrite assign_code. destruct (code v =? -996)%Z eqn:Y; [apply Z.eqb_eq in Y; unfold STATUS_CRASH in Hv; lia|].
        cbn [snd]. now rewrite wrap_code, assign_code.
      + rewrite check_status_ok by (rewrite assign_code; lia). cbn [snd]. now rewrite wrap_code, assign_code. }
  assert (FA : forall l, Forall (fun t => forall s, code (snd (fat_life ask b t s)) <> STATUS_CRASH) l) by (intro l; apply Forall_forall; intros t _; apply FL).
  unfold mgr_life. intro E. destruct b.
  - destruct (pr_flag (ask (snd s) (KDag who))); [|discriminate]. destruct (ML cs (FA cs) _ _ _ _ E) as (v & Hv & _). discriminate.
  - destruct (ML cs (FA cs) _ _ _ _ E) as (v & Hv & _). discriminate.
Qed.
Lemma add_nocrash ask f ks : (forall l c, code (pr_st (ask l c)) <> STATUS_CRASH) -> forall st l, code st <> STATUS_CRASH -> code (snd (add_loop ask f ks st l)) <> STATUS_CRASH.
Proof.
  intro NC. induction ks as [|k ks IH]; intros st l H; cbn; [exact H|]. apply IH. unfold st_plus. destruct (negb (isErr st) && isErr (pr_st (ask l (f k))))%bool; [apply NC|exact H].
Qed.
Lemma check_nocrash {A} (q1 q2 q3 : A) st o q : code st <> STATUS_CRASH ->
  match check_status st with Continue => (q1, Val st) | ReturnStatus w => (q2, Val w) | ThrowExc m => (q3, Thrown (what_of m)) end = (q, o) -> exists v, o = Val v.
Proof.
  intros H E. destruct (Z_lt_ge_dec (code st) 0) as [Hn|Hn].
  - rewrite check_status_err in E by exact Hn. destruct (code st =? -996)%Z eqn:X; [apply Z.eqb_eq in X; unfold STATUS_CRASH in H; lia|]. injection E as _ <-. eauto.
  - rewrite check_status_ok in E by lia. injection E as _ <-. eauto.
Qed.
Theorem C58_status_partial : forall ask p p' o, (forall l c, code (pr_st (ask l c)) <> STATUS_CRASH) ->
  (pipe_init ask p = (p', o) -> existsb (pp_flag p) (all_ids (pp_cfg p)) = false -> exists v, o = Val v) /\
  (pipe_destroy ask p = (p', o) -> exists v, o = Val v).
Proof.
  intros ask p p' o NC.
  assert (PC : forall a b, code a <> STATUS_CRASH -> code b <> STATUS_CRASH -> code (st_plus a b) <> STATUS_CRASH) by (intros a b Ha Hb; unfold st_plus; destruct (negb (isErr a) && isErr b)%bool; assumption).
  assert (D : code st_default <> STATUS_CRASH) by discriminate.
  assert (MV : forall b w cs s s1 o1, mgr_life ask (fat_life ask b) b w cs s = (s1, o1) -> exists v, o1 = Val v).
  { intros b w cs [fl l] [fl1 l1] o1 E. destruct (mgr_life_spec ask b _ w _ (fat_life_all ask b _) _ _ _ _ _ E) as (_ & _ & _ & _ & [H|[m ->]] & _); [exact H|].
    now destruct (mgr_throw ask b w cs _ _ m NC E). }
  split.
  - intros E HF. unfold pipe_init in E. destruct (pp_init p); [injection E as _ <-; eauto|].
    assert (X : exists p1 v, init_env ask p = (p1, Val v) /\ code v <> STATUS_CRASH).
    { unfold init_env. rewrite HF. assert (S : forall es st l, code st <> STATUS_CRASH -> exists l' v, suit_loop ask es st l = (l', Val v) /\ code v <> STATUS_CRASH).
      { induction es as [|e es IH]; intros st l Hst; cbn; [eauto|]. set (v := pr_st (ask l (KSuit e))) in *. assert (Hv : code v <> STATUS_CRASH) by apply NC.
        destruct (Z_lt_ge_dec (code v) 0) as [Hn|Hn].
        - rewrite check_status_err by (rewrite assign_code; exact Hn). rewrite assign_code. destruct (code v =? -996)%Z eqn:Y; [apply Z.eqb_eq in Y; unfold STATUS_CRASH in Hv; lia|].
          eexists. eexists. split; [reflexivity|]. now rewrite assign_code.
        - rewrite check_status_ok by (rewrite assign_code; lia). apply IH. now rewrite assign_code. }
      destruct (S (all_ids (pp_cfg p)) st_default (pp_log p) D) as (l' & v & -> & Hv).
      destruct (c_shared (pp_cfg p)) as [[]|]; eexists; eexists; (split; [reflexivity|]); first [now apply PC|discriminate]. }
    destruct X as (p1 & v & EI & Hv). rewrite EI in E. revert E.
    assert (HV : code (st_plus st_default v) <> STATUS_CRASH) by (now apply PC).
    destruct (Z_lt_ge_dec (code (st_plus st_default v)) 0) as [Hn|Hn].
    + rewrite check_status_err by exact Hn. destruct (code (st_plus st_default v) =? -996)%Z eqn:Y; [apply Z.eqb_eq in Y; unfold STATUS_CRASH in HV; lia|]. intro E. injection E as _ <-. eauto.
    + rewrite (check_status_ok _ (Z.ge_le _ _ Hn)). intro E.
      pose proof (add_nocrash ask KPInit (c_params (pp_cfg p1)) NC st_default (pp_log p1) D) as A1. destruct (add_loop ask KPInit _ _ _) as [l1 s1].
      pose proof (add_nocrash ask KEvInit (c_events (pp_cfg p1)) NC st_default l1 D) as A2. destruct (add_loop ask KEvInit _ _ _) as [l2 s2].
      match type of E with context [mgr_life ?a ?b ?c ?d ?e ?f] => destruct (mgr_life a b c d e f) as [[fl l3] o3] eqn:EM end. destruct (MV _ _ _ _ _ _ EM) as (s3 & ->).
      pose proof (add_nocrash ask KDmInit (c_daemons (pp_cfg p1)) NC st_default l3 D) as A4. destruct (add_loop ask KDmInit _ _ _) as [l4 s4]. cbn [snd] in *.
      destruct (Z.eq_dec (code s3) STATUS_CRASH) as [H3|H3].
      * exfalso. revert EM H3. clear -NC. intros EM H3. unfold mgr_life in EM. destruct (pr_flag _) in EM; [|injection EM as _ _ <-; discriminate].
        revert EM. generalize (fst (pp_flag p1, l2), snd (pp_flag p1, l2) ++ [(KDag None, ask (snd (pp_flag p1, l2)) (KDag None))]). intros s EM.
        assert (Q : forall cs st s s' v, code st <> STATUS_CRASH -> mgr_loop (fat_life ask true) true cs st s = (s', Val v) -> code v <> STATUS_CRASH).
        { clear -NC. induction cs as [|c cs IH]; intros st s s' v Hst E; cbn in E; [now injection E as _ <-|]. destruct (fat_life ask true c s) as [[fl l] u].
          set (w := st_assign st u) in *. destruct (Z_lt_ge_dec (code w) 0) as [Hn|Hn].
          - rewrite check_status_err in E by exact Hn. destruct (code w =? -996)%Z eqn:X; [discriminate|]. injection E as _ <-. intro Y. rewrite Y in X. discriminate.
          - rewrite check_status_ok in E by lia. eapply IH, E. unfold STATUS_CRASH. lia. }
        apply (Q _ _ _ _ _ (ltac:(discriminate) : code st_default <> STATUS_CRASH) EM H3).
      * eapply check_nocrash, E. repeat apply PC; assumption.
  - intro E. unfold pipe_destroy in E. destruct (negb (pp_init p)); [injection E as _ <-; eauto|].
    pose proof (add_nocrash ask KEvDestroy (c_events (pp_cfg p)) NC st_default (pp_log p) D) as A1. destruct (add_loop ask KEvDestroy _ _ _) as [l1 s1].
    pose proof (add_nocrash ask KDmDestroy (c_daemons (pp_cfg p)) NC st_default l1 D) as A2. destruct (add_loop ask KDmDestroy _ _ _) as [l2 s2].
    match type of E with context [mgr_life ?a ?b ?c ?d ?e ?f] => destruct (mgr_life a b c d e f) as [[fl l3] o3] eqn:EM end. destruct (MV _ _ _ _ _ _ EM) as (s3 & ->).
    pose proof (add_nocrash ask KPDestroy (c_params (pp_cfg p)) NC st_default l3 D) as A4. destruct (add_loop ask KPDestroy _ _ _) as [l4 s4]. cbn [snd] in *.
    destruct (Z.eq_dec (code s3) STATUS_CRASH) as [H3|H3].
    + exfalso. unfold mgr_life in EM.
      assert (Q : forall cs st s s' v, code st <> STATUS_CRASH -> mgr_loop (fat_life ask false) false cs st s = (s', Val v) -> code v <> STATUS_CRASH).
      { clear -NC. induction cs as [|c cs IH]; intros st s s' v Hst E; cbn in E; [now injection E as _ <-|]. destruct (fat_life ask false c s) as [[fl l] u].
        set (w := st_assign st u) in *. destruct (Z_lt_ge_dec (code w) 0) as [Hn|Hn].
        - rewrite check_status_err in E by exact Hn. destruct (code w =? -996)%Z eqn:X; [discriminate|]. injection E as _ <-. intro Y. rewrite Y in X. discriminate.
        - rewrite check_status_ok in E by lia. eapply IH, E. unfold STATUS_CRASH. lia. }
      apply (Q _ _ _ _ _ (ltac:(discriminate) : code st_default <> STATUS_CRASH) EM H3).
    + eapply check_nocrash, E. repeat apply PC; assumption.
Qed.
Print Assumptions C58_status_partial.
Example C58_nonvacuous : (forall l c, code (pr_st (node_init_fails l c)) <> STATUS_CRASH) /\
  snd (pipe_init node_init_fails (mkPipe false (fun _ => false) demo_cfg false false [])) = Val (st_err "no").
Proof. split; [intros l c; destruct c as [e|r|[|[|e]]|e|k|k|k s|k|k|k|k|d|d| |e]; discriminate|vm_compute; reflexivity]. Qed.
(** Creating a parameter keeps everything else of the configuration, and init on a pipeline whose shared pool is not initialised is refused with its own text and changes nothing. *)
Theorem C24_param : forall ask p k, exists p', pipe_step ask p (OParam k) = (p', Val st_default) /\
  c_params (pp_cfg p') = c_params (pp_cfg p) ++ [k] /\ c_elems (pp_cfg p') = c_elems (pp_cfg p) /\ c_events (pp_cfg p') = c_events (pp_cfg p) /\ c_daemons (pp_cfg p') = c_daemons (pp_cfg p) /\
  c_shared (pp_cfg p') = c_shared (pp_cfg p) /\ c_held (pp_cfg p') = c_held (pp_cfg p) /\
  pp_init p' = pp_init p /\ pp_flag p' = pp_flag p /\ pp_pool p' = pp_pool p /\ pp_cancel p' = pp_cancel p /\ pp_log p' = pp_log p.
Proof. intros ask p k. eexists. split; [reflexivity|]. repeat split. Qed.
Print Assumptions C24_param.
Theorem C24_shared_pool : forall ask p, pp_init p = false -> c_shared (pp_cfg p) = Some false -> pipe_step ask p OInit = (p, Val (mkStatus (-1) "shared thread pool is not init.")).
Proof. intros ask p I S. cbn [pipe_step]. unfold pipe_init, init_env. rewrite I, S. reflexivity. Qed.
Print Assumptions C24_shared_pool.
Example C24_shared_case : forall ask, snd (pipe_step ask (mkPipe false (fun _ => false) (mkC [] [] [] [] (Some false) []) false false []) OInit) = Val (mkStatus (-1) "shared thread pool is not init.").
Proof. intros ask. rewrite C24_shared_pool by reflexivity. reflexivity. Qed.
