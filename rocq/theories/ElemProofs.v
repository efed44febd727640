(** fatProcessor makes exactly the calls of ElemSpec. *)
From Verif Require Import ElemModel ElemSpec StatusProofs.
From Coq Require Import Lia.
Local Open Scope nat_scope.
Local Open Scope list_scope.

Lemma eta_st (s : status) : mkStatus (code s) (info s) = s.
Proof. now destruct s. Qed.
Lemma isErr_lt (s : status) : isErr s = true <-> (code s < 0)%Z.
Proof. unfold isErr, STATUS_OK. now rewrite Z.ltb_lt. Qed.
Lemma isErr_ge (s : status) : isErr s = false <-> (0 <= code s)%Z.
Proof. unfold isErr, STATUS_OK. now rewrite Z.ltb_ge. Qed.
Lemma check_status_err s : (code s < 0)%Z -> check_status s = if (code s =? -996)%Z then ThrowExc (info s) else ReturnStatus s.
Proof. intro H. unfold check_status. apply isErr_lt in H. now rewrite H. Qed.
Lemma check_status_ok s : (0 <= code s)%Z -> check_status s = Continue.
Proof. intro H. unfold check_status. apply isErr_ge in H. now rewrite H. Qed.
Lemma assign_err st s : (0 <= code st)%Z -> (code s < 0)%Z -> st_assign st s = s.
Proof.
  intros H1 H2. unfold st_assign. destruct (code st =? code s)%Z eqn:E; [apply Z.eqb_eq in E; lia|]. cbn. apply eta_st.
Qed.
Lemma assign_code st s : code (st_assign st s) = code s.
Proof. unfold st_assign. destruct (code st =? code s)%Z eqn:E; cbn; [now apply Z.eqb_eq in E|easy]. Qed.
Lemma assign_default s : code s = 0%Z -> st_assign st_default s = st_default.
Proof. intro H. unfold st_assign. rewrite H. reflexivity. Qed.
Lemma assign_ne st s : code st <> code s -> st_assign st s = s.
Proof. intro H. unfold st_assign. destruct (code st =? code s)%Z eqn:E; [apply Z.eqb_eq in E; easy|]. cbn. apply eta_st. Qed.
Lemma plus_ok s : (0 <= code s)%Z -> st_plus st_default s = st_default.
Proof. intro H. unfold st_plus. apply isErr_ge in H. rewrite H. reflexivity. Qed.
Lemma plus_err s : (code s < 0)%Z -> st_plus st_default s = s.
Proof. intro H. unfold st_plus. apply isErr_lt in H. rewrite H. cbn. apply eta_st. Qed.

Ltac zl := cbn [code st_default] in *; unfold st_default, STATUS_OK in *; cbn [code] in *; lia.

Section P.
Variable ask : oracle.

Lemma faithful_nil l0 : faithful ask l0 [].
Proof. intros a c r b E. destruct a; discriminate. Qed.
Lemma faithful_one l0 c : faithful ask l0 [(c, ask l0 c)].
Proof.
  intros a c0 r b E. right. destruct a as [|x a]; [|destruct a; discriminate].
  inversion E; subst. now rewrite app_nil_r.
Qed.
Lemma faithful_mark l0 f : faithful ask l0 [(CMark f, r_none)].
Proof.
  intros a c0 r b E. left. destruct a as [|x a]; [|destruct a; discriminate].
  inversion E; subst. now exists f.
Qed.
Lemma faithful_app l0 a b : faithful ask l0 a -> faithful ask (l0 ++ a) b -> faithful ask l0 (a ++ b).
Proof.
  intros Ha Hb x c r y E.
  apply app_eq_app in E. destruct E as (m & [[E1 E2]|[E1 E2]]).
  - destruct m as [|e m].
    + cbn in E2. subst b. rewrite app_nil_r in E1. subst x.
      destruct (Hb [] c r y eq_refl) as [H|H]; [now left|]. right. now rewrite app_nil_r in H.
    + cbn in E2. inversion E2; subst. apply (Ha x c r m). reflexivity.
  - subst x. destruct (Hb m c r y E2) as [H|H]; [now left|]. right. now rewrite app_assoc.
Qed.

(** A step of the proof: the new log extends the old one faithfully by [d]. *)
Definition ext (l l' d : log) : Prop := l' = l ++ d /\ faithful ask l d.
Lemma ext_nil l : ext l l [].
Proof. split; [now rewrite app_nil_r|apply faithful_nil]. Qed.
Lemma ext_trans l l1 l2 a b : ext l l1 a -> ext l1 l2 b -> ext l l2 (a ++ b).
Proof. intros [-> Fa] [-> Fb]. split; [now rewrite app_assoc|now apply faithful_app]. Qed.

Definition out_of_fate (r : out resp) (x : resp) : Prop :=
  match r with
  | Val v => v = x /\ call_fate false x = Fine
  | Thrown m => call_fate false x = Exn m
  | Escaped => call_fate false x = Alien
  | NoFuel => False
  end.
Lemma call_spec c l l1 o : call ask c l = (l1, o) ->
  ext l l1 [(c, ask l c)] /\ out_of_fate o (ask l c).
Proof.
  unfold call. intro E. inversion E; subst. split; [split; [reflexivity|apply faithful_one]|].
  unfold out_of_fate, call_fate. destruct (r_exc (ask l c)) as [[m|]|]; cbn; auto.
Qed.

Definition fate_out (o : fate) (r : out status) : Prop :=
  match o with
  | Fine => exists v, r = Val v /\ (0 <= code v)%Z
  | Error s => r = Val s /\ (code s < 0)%Z /\ code s <> (-996)%Z
  | Exn m => r = Thrown m
  | Alien => r = Escaped
  end.

Lemma call_fate_true_fine r : call_fate false r = Fine -> (0 <= code (r_st r))%Z -> call_fate true r = Fine.
Proof.
  unfold call_fate. destruct (r_exc r) as [[m|]|]; try easy. intros _ H. cbn.
  apply isErr_ge in H. unfold isErr, STATUS_OK in H. now rewrite H.
Qed.
Lemma call_fate_fine_none b r : call_fate b r = Fine -> r_exc r = None.
Proof. unfold call_fate. destruct (r_exc r) as [[m|]|]; easy. Qed.
Lemma call_fate_true_err r : call_fate false r = Fine -> (code (r_st r) < 0)%Z ->
  call_fate true r = if (code (r_st r) =? -996)%Z then Exn (what_of (info (r_st r))) else Error (r_st r).
Proof.
  unfold call_fate. destruct (r_exc r) as [[m|]|]; try easy. intros _ H. cbn.
  apply isErr_lt in H. unfold isErr, STATUS_OK in H. rewrite H. reflexivity.
Qed.
Lemma call_fate_exn b r m : call_fate false r = Exn m -> call_fate b r = Exn m.
Proof. unfold call_fate. destruct (r_exc r) as [[m'|]|]; easy. Qed.
Lemma call_fate_alien b r : call_fate false r = Alien -> call_fate b r = Alien.
Proof. unfold call_fate. destruct (r_exc r) as [[m'|]|]; easy. Qed.

(** [aspect_calls] from aspect [i] on. *)
Definition acalls (k : akind) (arg : status) (i n : nat) (l : log) (o : fate) : Prop :=
  exists j, j <= n /\ map fst l = map (fun i => CAspect k i arg) (seq i j) /\
    ((j = n /\ o = Fine /\ Forall (fun e => call_fate (is_begin k) (snd e) = Fine) l) \/
     (exists l0 e, l = l0 ++ [e] /\ Forall (fun e => call_fate (is_begin k) (snd e) = Fine) l0 /\
        call_fate (is_begin k) (snd e) = o /\ o <> Fine)).
Lemma acalls_cons k arg i n c r l o : c = CAspect k i arg -> call_fate (is_begin k) r = Fine ->
  acalls k arg (S i) n l o -> acalls k arg i (S n) ((c, r) :: l) o.
Proof.
  intros -> Hr (j & Hj & Hm & H). exists (S j). split; [lia|]. split; [cbn; now rewrite Hm|].
  destruct H as [(-> & -> & HF)|(l0 & e & -> & HF & He & Ho)].
  - left. repeat split; auto.
  - right. exists ((CAspect k i arg, r) :: l0), e. repeat split; auto.
Qed.
Lemma acalls_stop k arg i n r o : call_fate (is_begin k) r = o -> o <> Fine -> acalls k arg i (S n) [(CAspect k i arg, r)] o.
Proof.
  intros Hr Ho. exists 1. split; [lia|]. split; [reflexivity|]. right. exists [], (CAspect k i arg, r). auto.
Qed.

Lemma reflect_spec k arg n : forall i st l l' r, (0 <= code st)%Z -> reflect ask k arg i n st l = (l', r) ->
  exists d o, ext l l' d /\ acalls k arg i n d o /\ fate_out o r.
Proof.
  induction n as [|n IH]; intros i st l l' r Hst E.
  - cbn in E. inversion E; subst. exists [], Fine. split; [apply ext_nil|]. split.
    + exists 0. split; [lia|]. split; [reflexivity|]. left. auto.
    + exists st. auto.
  - cbn [reflect] in E. destruct (call ask (CAspect k i arg) l) as [l1 o] eqn:Ec.
    apply call_spec in Ec. destruct Ec as [X Hc]. set (x := ask l (CAspect k i arg)) in *.
    destruct o as [v|m| |]; cbn in Hc; [destruct Hc as [-> Hc]| | |easy].
    + set (st' := if is_begin k then st_assign st (r_st x) else st) in *.
      destruct (Z_lt_ge_dec (code st') 0) as [Hn|Hn].
      * assert (Eb : is_begin k = true) by (destruct (is_begin k) eqn:E1; [easy|subst st'; lia]).
        assert (Hx : (code (r_st x) < 0)%Z) by (subst st'; rewrite Eb, assign_code in Hn; exact Hn).
        assert (Es : st' = r_st x) by (subst st'; rewrite Eb; now apply assign_err).
        rewrite Es, check_status_err in E by easy.
        pose proof (call_fate_true_err x Hc Hx) as Hf.
        destruct (code (r_st x) =? -996)%Z eqn:E9.
        -- inversion E; subst l' r. exists [(CAspect k i arg, x)], (Exn (what_of (info (r_st x)))).
           split; [exact X|]. split; [|reflexivity]. apply acalls_stop; [now rewrite Eb|easy].
        -- inversion E; subst l' r. exists [(CAspect k i arg, x)], (Error (r_st x)).
           split; [exact X|]. split; [|repeat split; [easy|now apply Z.eqb_neq]]. apply acalls_stop; [now rewrite Eb|easy].
      * rewrite check_status_ok in E by lia.
        assert (Hf : call_fate (is_begin k) x = Fine).
        { destruct (is_begin k) eqn:E1; [|exact Hc]. apply call_fate_true_fine; [exact Hc|].
          subst st'. rewrite assign_code in Hn. lia. }
        apply IH in E; [|lia]. destruct E as (d & o & X2 & A & F).
        exists ([(CAspect k i arg, x)] ++ d), o. split; [now apply (ext_trans l l1 l')|].
        split; [|exact F]. cbn [app]. now apply acalls_cons.
    + inversion E; subst l' r. exists [(CAspect k i arg, x)], (Exn m).
      split; [exact X|]. split; [|reflexivity]. apply acalls_stop; [now apply call_fate_exn|easy].
    + inversion E; subst l' r. exists [(CAspect k i arg, x)], Alien.
      split; [exact X|]. split; [|reflexivity]. apply acalls_stop; [now apply call_fate_alien|easy].
Qed.

Lemma do_aspect_spec k arg n l l' r : do_aspect ask k arg n l = (l', r) ->
  exists d o, ext l l' d /\ aspect_calls k arg n d o /\ fate_out o r.
Proof.
  unfold do_aspect. destruct (Nat.eqb n 0) eqn:En.
  - apply Nat.eqb_eq in En. subst. intro E. inversion E; subst. exists [], Fine. split; [apply ext_nil|].
    split; [exists 0; split; [lia|]; split; [reflexivity|]; left; auto|]. exists st_default. split; [easy|zl].
  - destruct (reflect ask k arg 0 n st_default l) as [l1 r1] eqn:Er.
    apply reflect_spec in Er; [|zl]. destruct Er as (d & o & X & A & F). intro E.
    exists d, o. destruct o as [|s|m|]; cbn in F.
    + destruct F as (v & -> & Hv). inversion E; subst. split; [exact X|]. split; [exact A|].
      exists (st_assign st_default v). split; [easy|]. now rewrite assign_code.
    + destruct F as (-> & F1 & F2). inversion E; subst. split; [exact X|]. split; [exact A|].
      rewrite assign_err by (first [zl|easy]). cbn. auto.
    + subst r1. inversion E; subst. split; [exact X|]. split; [exact A|]. reflexivity.
    + subst r1. inversion E; subst. split; [exact X|]. split; [exact A|]. reflexivity.
Qed.

(** [ctl] and the spec's view of it. *)
Definition ctl_fate (st : status) (o : fate) (c : ctl) : Prop :=
  match o with
  | Fine => c = Go st
  | Error s => c = Ret s
  | Exn m => c = Thr st m
  | Alien => c = Esc
  end.
Definition default_or_err (st : status) : Prop := st = st_default \/ (code st < 0)%Z.

Lemma hold_spec fuel : forall l l' c, hold_loop ask fuel st_default l = (l', c) -> c <> Fuel ->
  exists d st o, ext l l' d /\ body_calls d st o /\ ctl_fate st o c /\ default_or_err st /\ (forall s, o <> Error s).
Proof.
  induction fuel as [|f IH]; intros l l' c E Hc.
  - cbn in E. inversion E; subst. easy.
  - cbn [hold_loop] in E. destruct (call ask CBody l) as [l1 o1] eqn:E1. apply call_spec in E1. destruct E1 as [X1 F1].
    set (x := ask l CBody) in *.
    destruct o1 as [v|m| |]; cbn in F1; [destruct F1 as [-> F1]| | |easy].
    + destruct (call ask CHold l1) as [l2 o2] eqn:E2. apply call_spec in E2. destruct E2 as [X2 F2].
      set (y := ask l1 CHold) in *.
      pose proof (ext_trans _ _ _ _ _ X1 X2) as X. cbn [app] in X.
      destruct (Z_lt_ge_dec (code (r_st x)) 0) as [Hn|Hn].
      * rewrite plus_err in E by lia. 
        assert (Ek : isOK (r_st x) = false) by (unfold isOK, STATUS_OK; apply Z.eqb_neq; lia).
        assert (D : default_or_err (r_st x)) by (right; lia).
        assert (NE : forall s, call_fate false y <> Error s).
        { intro s. unfold call_fate. destruct (r_exc y) as [[?|]|]; easy. }
        pose proof (bc_error x y F1 ltac:(lia)) as B.
        destruct o2 as [v|m| |]; cbn in F2; [destruct F2 as [-> F2]| | |easy].
        -- rewrite Ek, andb_false_r in E. inversion E; subst l' c.
           exists [(CBody, x); (CHold, y)], (r_st x), (call_fate false y). rewrite F2 in B |- *. repeat split; auto; easy || apply X.
        -- inversion E; subst l' c. exists [(CBody, x); (CHold, y)], (r_st x), (call_fate false y).
           rewrite F2 in B |- *. repeat split; auto; easy || apply X.
        -- inversion E; subst l' c. exists [(CBody, x); (CHold, y)], (r_st x), (call_fate false y).
           rewrite F2 in B |- *. repeat split; auto; easy || apply X.
      * rewrite plus_ok in E by lia.
        assert (D : default_or_err st_default) by now left.
        destruct o2 as [v|m| |]; cbn in F2; [destruct F2 as [-> F2]| | |easy].
        -- destruct (r_flag y) eqn:Ey; cbn [andb isOK] in E.
           ++ change (isOK st_default) with true in E. cbn [andb] in E.
              apply IH in E; [|exact Hc]. destruct E as (d & st & o & X3 & B & C & D' & NE).
              exists ([(CBody, x); (CHold, y)] ++ d), st, o. split; [now apply (ext_trans l l2 l')|].
              split; [|auto]. cbn [app]. apply bc_again; auto. lia.
           ++ inversion E; subst l' c. exists [(CBody, x); (CHold, y)], st_default, (call_fate false y).
              pose proof (bc_done x y F1 ltac:(lia) (or_intror Ey)) as B.
              rewrite F2 in B |- *. repeat split; auto; easy || apply X.
        -- inversion E; subst l' c. exists [(CBody, x); (CHold, y)], st_default, (call_fate false y).
           assert (NF : call_fate false y <> Fine) by now rewrite F2.
           pose proof (bc_done x y F1 ltac:(lia) (or_introl NF)) as B.
           rewrite F2 in B |- *. repeat split; auto; easy || apply X.
        -- inversion E; subst l' c. exists [(CBody, x); (CHold, y)], st_default, (call_fate false y).
           assert (NF : call_fate false y <> Fine) by now rewrite F2.
           pose proof (bc_done x y F1 ltac:(lia) (or_introl NF)) as B.
           rewrite F2 in B |- *. repeat split; auto; easy || apply X.
    + inversion E; subst l' c. exists [(CBody, x)], st_default, (Exn m).
      assert (NF : call_fate false x <> Fine) by now rewrite F1.
      pose proof (bc_throw x NF) as B. rewrite F1 in B. repeat split; auto; try easy; try apply X1. now left.
    + inversion E; subst l' c. exists [(CBody, x)], st_default, Alien.
      assert (NF : call_fate false x <> Fine) by now rewrite F1.
      pose proof (bc_throw x NF) as B. rewrite F1 in B. repeat split; auto; try easy; try apply X1. now left.
Qed.

Lemma finish_not_error k arg n l s : is_begin k = false -> ~ aspect_calls k arg n l (Error s).
Proof.
  intros Hk (j & _ & _ & [(_ & H & _)|(l0 & e & _ & _ & H & _)]); [easy|].
  rewrite Hk in H. unfold call_fate in H. destruct (r_exc (snd e)) as [[?|]|]; easy.
Qed.

Lemma ext_state l : ext l (l ++ [(CState, ask l CState)]) [(CState, ask l CState)].
Proof. split; [easy|apply faithful_one]. Qed.

Lemma run_loop_spec n fuel k : forall l l' c, run_loop ask n fuel k st_default l = (l', c) -> c <> Fuel ->
  exists d st o, ext l l' d /\ iterations n k d st o /\ ctl_fate st o c /\ default_or_err st.
Proof.
  induction k as [|k IH]; intros l l' c E Hc.
  - cbn in E. inversion E; subst. exists [], st_default, Fine. split; [apply ext_nil|]. split; [constructor|].
    split; [reflexivity|now left].
  - cbn [run_loop] in E. change (isOK st_default) with true in E. cbn [negb] in E.
    set (x := ask l CState) in *. pose proof (ext_state l) as X0. fold x in X0.
    set (l0 := l ++ [(CState, x)]) in *.
    destruct (r_flag x) eqn:Ex; cbn [negb] in E.
    2:{ inversion E; subst l' c. exists [(CState, x)], st_default, Fine. split; [exact X0|].
        split; [now constructor|]. split; [reflexivity|now left]. }
    destruct (do_aspect ask ABeginRun st_default n l0) as [l1 b] eqn:Eb.
    apply do_aspect_spec in Eb. destruct Eb as (db & ob & Xb & Ab & Fb).
    assert (LAST : forall d st o, ext l0 l' d -> iteration n d st o -> (code st < 0)%Z \/ o <> Fine -> ctl_fate st o c -> default_or_err st ->
      exists d st o, ext l l' d /\ iterations n (S k) d st o /\ ctl_fate st o c /\ default_or_err st).
    { intros d st o X I S C D. exists ([(CState, x)] ++ d), st, o. split; [now apply (ext_trans l l0 l')|].
      split; [|auto]. cbn [app]. now apply its_last. }
    assert (D0 : default_or_err st_default) by now left.
    destruct ob as [|s|m|]; cbn in Fb.
    + destruct Fb as (v & -> & Hv). cbn [lift] in E.
      rewrite plus_ok in E by exact Hv.
      assert (Ck : check st_default = Go st_default) by reflexivity. rewrite Ck in E.
      destruct (hold_loop ask fuel st_default l1) as [l2 ch] eqn:Eh.
      assert (HF : ch <> Fuel). { intros ->. inversion E; subst. now apply Hc. }
      apply hold_spec in Eh; [|exact HF]. destruct Eh as (dh & st & oh & Xh & Bh & Ch & Dh & NE).
      pose proof (ext_trans _ _ _ _ _ Xb Xh) as Xbh.
      destruct oh as [|s|m|]; cbn in Ch; [subst ch|now destruct (NE s)|subst ch|subst ch].
      * destruct (do_aspect ask AFinishRun st n l2) as [l3 e] eqn:Ee.
        apply do_aspect_spec in Ee. destruct Ee as (df & of & Xf & Af & Ff).
        assert (X3 : ext l0 l3 (db ++ dh ++ df)) by (rewrite app_assoc; now apply (ext_trans l0 l2 l3)).
        pose proof (it_finish n db dh st df of Ab Bh Af) as I.
        destruct of as [|s|m|]; cbn in Ff.
        -- destruct Ff as (v2 & -> & _). cbn [lift] in E.
           destruct Dh as [->|Dh].
           ++ apply IH in E; [|exact Hc]. destruct E as (d & st & o & X4 & It & C & D).
              exists ([(CState, x)] ++ (db ++ dh ++ df) ++ d), st, o.
              split; [apply (ext_trans l l0 l'); [exact X0|]; now apply (ext_trans l0 l3 l')|].
              split; [|auto]. cbn [app]. now apply its_next.
           ++ assert (Er : run_loop ask n fuel k st l3 = (l3, Go st)).
              { destruct k; [reflexivity|]. cbn [run_loop].
                assert (Ek : isOK st = false) by (unfold isOK, STATUS_OK; apply Z.eqb_neq; lia). now rewrite Ek. }
              rewrite Er in E. inversion E; subst l' c.
              apply (LAST _ _ _ X3 I); [now left|reflexivity|now right].
        -- now apply finish_not_error in Af.
        -- subst e. cbn [lift] in E. inversion E; subst l' c. apply (LAST _ _ _ X3 I); [now right|reflexivity|exact Dh].
        -- subst e. cbn [lift] in E. inversion E; subst l' c. apply (LAST _ _ _ X3 I); [now right|reflexivity|exact Dh].
      * inversion E; subst l' c. apply (LAST (db ++ dh) st (Exn m)); try easy; [apply it_body; easy|now right].
      * inversion E; subst l' c. apply (LAST (db ++ dh) st Alien); try easy; [apply it_body; easy|now right].
    + destruct Fb as (-> & F1 & F2). cbn [lift] in E. rewrite plus_err in E by exact F1.
      unfold check in E. rewrite check_status_err in E by exact F1.
      apply Z.eqb_neq in F2. rewrite F2 in E. inversion E; subst l' c.
      apply (LAST db st_default (Error s)); try easy; [apply it_begin; easy|now right].
    + subst b. cbn [lift] in E. inversion E; subst l' c.
      apply (LAST db st_default (Exn m)); try easy; [apply it_begin; easy|now right].
    + subst b. cbn [lift] in E. inversion E; subst l' c.
      apply (LAST db st_default Alien); try easy; [apply it_begin; easy|now right].
Qed.

Definition ctl_fin (d : fin) (c : ctl) : Prop :=
  match d with
  | Done s => c = Ret s \/ c = Go s
  | Crash st m => c = Thr st m
  | Out => c = Esc
  end.
Lemma leave_ctl st o c : ctl_fate st o c -> ctl_fin (leave st o) c.
Proof. destruct o; cbn; auto. Qed.

Lemma check_calls_spec st l l' c : check_run_result ask st l = (l', c) ->
  exists d f, ext l l' d /\ check_calls st d f /\ ctl_fin f c.
Proof.
  unfold check_run_result. destruct (call ask CCheck l) as [l1 o1] eqn:E1. apply call_spec in E1. destruct E1 as [X1 F1].
  set (x := ask l CCheck) in *. intro E.
  destruct o1 as [v|m| |]; cbn in F1; [destruct F1 as [-> F1]| | |easy].
  - destruct (isErr (r_st x)) eqn:Ex.
    + apply isErr_lt in Ex. destruct (call ask CCheck l1) as [l2 o2] eqn:E2. apply call_spec in E2. destruct E2 as [X2 F2].
      set (y := ask l1 CCheck) in *. pose proof (ext_trans _ _ _ _ _ X1 X2) as X. cbn [app] in X.
      pose proof (cc_err st x y F1 Ex) as B.
      exists [(CCheck, x); (CCheck, y)].
      destruct o2 as [v|m| |]; cbn in F2; [destruct F2 as [-> F2]| | |easy]; rewrite F2 in B; cbn [leave] in B;
        inversion E; subst l' c; eexists; (split; [exact X|]); (split; [exact B|]); reflexivity.
    + apply isErr_ge in Ex. inversion E; subst l' c. exists [(CCheck, x)], (Done st). split; [exact X1|].
      split; [now apply cc_ok|]. now left.
  - inversion E; subst l' c. assert (NF : call_fate false x <> Fine) by now rewrite F1.
    pose proof (cc_throw st x NF) as B. rewrite F1 in B. eexists _, _. split; [exact X1|]. split; [exact B|]. reflexivity.
  - inversion E; subst l' c. assert (NF : call_fate false x <> Fine) by now rewrite F1.
    pose proof (cc_throw st x NF) as B. rewrite F1 in B. eexists _, _. split; [exact X1|]. split; [exact B|]. reflexivity.
Qed.

Lemma run_loop_pos n fuel k st l : (0 < code st)%Z -> run_loop ask n fuel k st l = (l, Go st).
Proof.
  intro H. destruct k; [reflexivity|]. cbn [run_loop].
  assert (Ek : isOK st = false) by (unfold isOK, STATUS_OK; apply Z.eqb_neq; lia). now rewrite Ek.
Qed.

Lemma try_run_spec n loop fuel prepared l l' p c : try_run ask n loop fuel prepared l = (l', p, c) -> c <> Fuel ->
  exists d f, ext l l' d /\ run_calls prepared n loop d p f /\ ctl_fin f c.
Proof.
  intros E Hc. unfold try_run in E.
  assert (REST : forall lp l1, ext l l1 lp ->
     (prepared = true /\ lp = [] \/ prepared = false /\ exists r, lp = [(CPrepare, r)] /\ call_fate true r = Fine /\ code (r_st r) = 0%Z) ->
     match run_loop ask n fuel loop st_default l1 with
     | (l2, Go st2) => let '(l3, c) := check_run_result ask st2 l2 in (l3, true, c)
     | (l2, c) => (l2, true, c)
     end = (l', p, c) -> exists d f, ext l l' d /\ run_calls prepared n loop d p f /\ ctl_fin f c).
  { intros lp l1 X Hp E1. destruct (run_loop ask n fuel loop st_default l1) as [l2 cr] eqn:Er.
    assert (HF : cr <> Fuel). { intros ->. inversion E1; subst. now apply Hc. }
    apply run_loop_spec in Er; [|exact HF]. destruct Er as (d & st & o & X2 & It & C & D).
    destruct o as [|s|m|]; cbn in C; subst cr.
    - destruct (check_run_result ask st l2) as [l3 c3] eqn:Ec. apply check_calls_spec in Ec.
      destruct Ec as (dc & f & X3 & K & Cf). inversion E1; subst l3 p c3.
      exists (lp ++ d ++ dc), f. split.
      + apply (ext_trans l l1 l'); [exact X|]. now apply (ext_trans l1 l2 l').
      + split; [|exact Cf]. now apply (rc_run prepared n loop lp d st dc f).
    - inversion E1; subst l' p c. exists (lp ++ d), (leave st (Error s)). split; [now apply (ext_trans l l1 l2)|].
      split; [|now left]. now apply rc_stop.
    - inversion E1; subst l' p c. exists (lp ++ d), (leave st (Exn m)). split; [now apply (ext_trans l l1 l2)|].
      split; [|reflexivity]. now apply rc_stop.
    - inversion E1; subst l' p c. exists (lp ++ d), (leave st Alien). split; [now apply (ext_trans l l1 l2)|].
      split; [|reflexivity]. now apply rc_stop. }
  destruct prepared eqn:Ep.
  - apply (REST [] l); [apply ext_nil|now left|exact E].
  - destruct (call ask CPrepare l) as [l1 o1] eqn:E1. apply call_spec in E1. destruct E1 as [X1 F1].
    set (x := ask l CPrepare) in *.
    assert (STOP : call_fate true x <> Fine -> l' = l1 -> p = false -> 
      ctl_fin (leave (match r_exc x with None => r_st x | Some _ => st_default end) (call_fate true x)) c ->
      exists d f, ext l l' d /\ run_calls false n loop d p f /\ ctl_fin f c).
    { intros NF -> -> C. exists [(CPrepare, x)], (leave (match r_exc x with None => r_st x | Some _ => st_default end) (call_fate true x)). split; [exact X1|].
      split; [|exact C]. now apply rc_prepare_stop. }
    destruct o1 as [v|m| |]; cbn in F1; [destruct F1 as [-> F1]| | |easy].
    + unfold check in E. destruct (Z_lt_ge_dec (code (r_st x)) 0) as [Hn|Hn].
      * rewrite assign_err in E by zl. rewrite check_status_err in E by exact Hn.
        pose proof (call_fate_true_err x F1 Hn) as F2.
        destruct (code (r_st x) =? -996)%Z; inversion E; subst; (apply STOP; [now rewrite F2|reflexivity|reflexivity|rewrite F2, (call_fate_fine_none _ _ F1); cbn; auto]).
      * rewrite check_status_ok in E by (rewrite assign_code; lia).
        pose proof (call_fate_true_fine x F1 ltac:(lia)) as F2.
        destruct (Z.eq_dec (code (r_st x)) 0) as [Hz|Hz].
        -- rewrite assign_default in E by exact Hz. apply (REST [(CPrepare, x)] l1); [exact X1| |exact E].
           right. split; [easy|]. now exists x.
        -- rewrite assign_ne in E by zl. rewrite run_loop_pos in E by lia.
           destruct (check_run_result ask (r_st x) l1) as [l3 c3] eqn:Ec. apply check_calls_spec in Ec.
           destruct Ec as (dc & f & X3 & K & Cf). inversion E; subst l3 p c3.
           exists ([(CPrepare, x)] ++ dc), f. split; [now apply (ext_trans l l1 l')|]. split; [|exact Cf].
           cbn [app]. apply rc_prepare_pos; auto. lia.
    + inversion E; subst. apply STOP; [now rewrite (call_fate_exn true _ _ F1)|easy|easy|rewrite (call_fate_exn true _ _ F1); unfold call_fate in F1; destruct (r_exc x) as [[?|]|]; easy].
    + inversion E; subst. apply STOP; [now rewrite (call_fate_alien true _ F1)|easy|easy|rewrite (call_fate_alien true _ F1); unfold call_fate in F1; destruct (r_exc x) as [[?|]|]; easy].
Qed.

Lemma try_simple_spec kb kf body n l l' c : is_begin kf = false -> try_simple ask kb kf body n l = (l', c) -> c <> Fuel ->
  exists d f, ext l l' d /\ simple_calls kb kf body n d f /\ ctl_fin f c.
Proof.
  intros Hkf E Hc. unfold try_simple in E. destruct (do_aspect ask kb st_default n l) as [l1 b] eqn:Eb.
  apply do_aspect_spec in Eb. destruct Eb as (db & ob & Xb & Ab & Fb).
  destruct ob as [|s|m|]; cbn in Fb.
  - destruct Fb as (v & -> & Hv). cbn [lift] in E. unfold check in E.
    assert (Hcv : (0 <= code (st_assign st_default v))%Z) by (rewrite assign_code; lia).
    rewrite check_status_ok in E by exact Hcv. set (st := st_assign st_default v) in *.
    destruct (call ask body l1) as [l2 o2] eqn:E2. apply call_spec in E2. destruct E2 as [X2 F2].
    set (x := ask l1 body) in *. pose proof (ext_trans _ _ _ _ _ Xb X2) as X.
    destruct o2 as [w|m| |]; cbn in F2; [destruct F2 as [-> F2]| | |easy].
    + destruct (do_aspect ask kf (st_assign st (r_st x)) n l2) as [l3 e] eqn:Ee.
      apply do_aspect_spec in Ee. destruct Ee as (df & of & Xf & Af & Ff).
      pose proof (ext_trans _ _ _ _ _ X Xf) as X3. rewrite <- app_assoc in X3. cbn [app] in X3.
      assert (B : simple_calls kb kf body n (db ++ (body, x) :: df) (leave (st_assign st (r_st x)) of)).
      { apply sc_finish; auto; [apply assign_code|]. intro H. rewrite assign_code in H. now apply assign_err. }
      inversion E; subst l3 c. eexists _, _. split; [exact X3|]. split; [exact B|].
      destruct of as [|s|m|]; cbn in Ff.
      * destruct Ff as (v2 & -> & _). now left.
      * now apply finish_not_error in Af.
      * now subst e.
      * now subst e.
    + inversion E; subst. exists (db ++ [(body, x)]), (leave st (call_fate false x)). split; [exact X|].
      split; [apply sc_throw; auto; now rewrite F2|]. now rewrite F2.
    + inversion E; subst. exists (db ++ [(body, x)]), (leave st (call_fate false x)). split; [exact X|].
      split; [apply sc_throw; auto; now rewrite F2|]. now rewrite F2.
  - destruct Fb as (-> & F1 & F2). cbn [lift] in E. rewrite assign_err in E by zl. unfold check in E.
    rewrite check_status_err in E by exact F1. apply Z.eqb_neq in F2. rewrite F2 in E. inversion E; subst.
    exists db, (leave st_default (Error s)). split; [exact Xb|]. split; [now apply sc_begin|now left].
  - subst b. cbn [lift] in E. inversion E; subst. exists db, (leave st_default (Exn m)). split; [exact Xb|].
    split; [now apply sc_begin|reflexivity].
  - subst b. cbn [lift] in E. inversion E; subst. exists db, (leave st_default Alien). split; [exact Xb|].
    split; [now apply sc_begin|reflexivity].
Qed.

Theorem fat_spec n loop fuel f l p l' p' o : fat ask true n loop fuel f (l, p) = ((l', p'), o) -> o <> NoFuel ->
  exists d, ext l l' d /\ process_calls f p n loop d p' o.
Proof.
  intros E Ho. unfold fat in E. cbn [negb fst snd] in E.
  set (l0 := l ++ [(CMark f, r_none)]) in *.
  assert (X0 : ext l l0 [(CMark f, r_none)]) by (split; [easy|apply faithful_mark]).
  match type of E with context [match f with FInit => ?a | FRun => ?b | FDestroy => ?c end] =>
    destruct (match f with FInit => a | FRun => b | FDestroy => c end) as [[l1 p1] c0] eqn:Et end. rename c0 into c.
  assert (T : c <> Fuel -> exists d fi, ext l0 l1 d /\ try_calls f p n loop d p1 fi /\ ctl_fin fi c).
  { intro Hc. destruct f.
    - destruct (try_simple ask ABeginInit AFinishInit CInit n l0) as [l2 c2] eqn:Es. inversion Et; subst l2 p1 c2.
      apply try_simple_spec in Es; [|easy|exact Hc]. destruct Es as (d & fi & X & S & C). exists d, fi. cbn. auto.
    - apply try_run_spec in Et; [|exact Hc]. exact Et.
    - destruct (try_simple ask ABeginDestroy AFinishDestroy CDestroy n l0) as [l2 c2] eqn:Es. inversion Et; subst l2 p1 c2.
      apply try_simple_spec in Es; [|easy|exact Hc]. destruct Es as (d & fi & X & S & C). exists d, fi. cbn. auto. }
  assert (HF : c <> Fuel) by (intros ->; inversion E; subst; now apply Ho).
  destruct (T HF) as (d & fi & X & K & C). clear T.
  assert (DONE : forall s, ((l1, p1), Val s) = ((l', p'), o) -> fi = Done s -> exists d, ext l l' d /\ process_calls f p n loop d p' o).
  { intros s E1 Ef. inversion E1; subst. exists ([(CMark f, r_none)] ++ d). split; [now apply (ext_trans l l0 l')|].
    cbn [app]. now apply pc_done. }
  destruct fi as [s|st m|]; cbn in C.
  - destruct C as [->| ->]; now apply (DONE s).
  - subst c. destruct (do_aspect ask AEnterCrashed st_default n l1) as [l2 b] eqn:Eb.
    apply do_aspect_spec in Eb. destruct Eb as (da & oa & Xa & Aa & Fa).
    assert (XX : ext l l2 ((CMark f, r_none) :: d ++ da)).
    { change ((CMark f, r_none) :: d ++ da) with ([(CMark f, r_none)] ++ (d ++ da)).
      apply (ext_trans l l0 l2); [exact X0|now apply (ext_trans l0 l1 l2)]. }
    exists ((CMark f, r_none) :: d ++ da).
    destruct oa as [|s|m'|]; cbn in Fa.
    + destruct Fa as (v & -> & _). inversion E; subst. split; [exact XX|].
      replace (st_assign st {| code := STATUS_CRASH; info := m |})
        with (if (code st =? -996)%Z then st else mkStatus (-996) m).
      * now apply pc_crash.
      * unfold st_assign, STATUS_CRASH. cbn [code info]. now destruct (code st =? -996)%Z.
    + now apply finish_not_error in Aa.
    + subst b. inversion E; subst. split; [exact XX|]. now apply (pc_crash_exn f p n loop d p' st m).
    + subst b. inversion E; subst. split; [exact XX|]. now apply (pc_crash_out f p n loop d p' st m).
  - subst c. inversion E; subst. exists ([(CMark f, r_none)] ++ d). split; [now apply (ext_trans l l0 l')|].
    cbn [app]. now apply pc_out.
Qed.
End P.
