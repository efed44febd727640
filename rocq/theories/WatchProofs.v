From Verif Require Import WatchModel WatchSpec.
From Coq Require Import Lia.
Local Open Scope nat_scope.
Local Open Scope list_scope.

Section C.
Variables (size span : nat).
Notation step := (wstep size span).
Notation run := (wrun size span).
Lemma wrun_app a : forall s b, run s (a ++ b) = match run s a with WRun s' => run s' b | x => x end.
Proof. induction a as [|l a IH]; intros s b; cbn [app wrun]; [reflexivity|]. destruct (step s l); try reflexivity. apply IH. Qed.
Ltac rd := cbn [user mon set_mon set_flags set_vec leave w_en w_init w_vec w_alive w_fresh w_user w_mon w_log] in *.

(** * Without a monitor *)
Lemma alone_step s l : l <> LConfig true -> w_en s = false -> w_mon s = None -> match step s l with WRun s' => w_en s' = false /\ w_mon s' = None | WStuck => True | _ => False end.
Proof.
  intros NC E M. destruct l; cbn [wstep].
  - destruct (w_user s); rd; auto.
  - destruct en; [now destruct NC|]. destruct (w_user s), (w_init s); rd; auto.
  - destruct (w_user s); rd; auto.
  - destruct (w_user s); rd; auto.
  - destruct (w_user s); rd; auto.
    + rewrite E. rd. auto.
    + destruct (k <? size); rd; auto.
    + destruct (w_init s); rd; auto.
    + destruct (nth_error (w_vec s) i) as [[p|]|]; rd; auto.
    + rewrite M. rd. auto.
  - rewrite M. exact Logic.I.
Qed.
Lemma alone_run ls : forall s, ~ In (LConfig true) ls -> w_en s = false -> w_mon s = None -> run s ls <> WCrash /\ run s ls <> WUndef.
Proof.
  induction ls as [|l ls IH]; intros s NC E M; cbn [wrun]; [split; discriminate|]. assert (NL : l <> LConfig true) by (intros ->; apply NC; now left). pose proof (alone_step s l NL E M) as H. destruct (step s l) as [s1| | |]; try easy. apply IH; [intro X; apply NC; now right|apply H|apply H].
Qed.

(** * All runs with a monitor *)
Definition some_alive (s : wst) : Prop := Forall (fun x => exists p, x = Some p /\ w_alive s p = true) (w_vec s).
(** The pool is being taken down by its deletion. *)
Definition late (u : upc) : bool := match u with X2 | D1 true | D2 _ true | D3 true | D4 true | Gone => true | _ => false end.
Definition quietu (u : upc) : bool := match u with D2 _ _ | D3 _ | D4 _ | Gone => false | _ => true end.
(** Init is making the threads. *)
Definition building (u : upc) : bool := match u with I3 _ | I4 => true | _ => false end.
Record ginv (s : wst) : Prop := mk_ginv
  { g_mon : late (w_user s) = false -> w_en s = true -> w_init s = true \/ building (w_user s) = true -> exists p, w_mon s = Some p /\ p <> WEnd;
    g_vec : quietu (w_user s) = true -> some_alive s;
    g_len : match w_user s with
            | UIdle | I1 | D1 _ | X1 | X2 => w_vec s = [] /\ w_init s = false \/ length (w_vec s) = size /\ w_init s = true
            | I2 => w_vec s = [] /\ w_init s = false
            | I3 k => length (w_vec s) = k /\ k <= size /\ w_init s = false
            | I4 => length (w_vec s) = size /\ w_init s = false
            | D2 _ _ | D3 _ | Gone => True
            | D4 _ => w_vec s = []
            end }.
Lemma ginv_new en : ginv (w_new en).
Proof. constructor; cbn; [intros _ _ [|]; discriminate|intros _; constructor|now left]. Qed.
Lemma some_more s v : some_alive s -> Forall (fun x => exists p, x = Some p /\ upd (w_alive s) v true p = true) (w_vec s ++ [Some v]).
Proof.
  intro H. apply Forall_app. split; [|constructor; [exists v; split; [reflexivity|apply upd_same]|constructor]]. eapply Forall_impl; [|exact H]. intros x (p & -> & A). exists p. split; [reflexivity|]. unfold upd. destruct (Nat.eqb p v); [reflexivity|exact A].
Qed.
Ltac away := let H := fresh in intros _ _ [H|H]; congruence.
Lemma ginv_step s l s' : ginv s -> step s l = WRun s' -> ginv s'.
Proof.
  intros [G1 G4 G5] E. destruct l; cbn [wstep] in E.
  - destruct (w_user s) eqn:U; try discriminate. injection E as <-. constructor; rd; auto.
  - destruct (w_user s) eqn:U; try discriminate. destruct (w_init s) eqn:I; injection E as <-; constructor; rd; rewrite ?I; auto. cbn [building]. away.
  - destruct (w_user s) eqn:U; try discriminate. injection E as <-. constructor; rd; auto.
  - destruct (w_user s) eqn:U; try discriminate. injection E as <-. constructor; rd; auto.
  - destruct (w_user s) as [| | |k| |del|i del|del|del| | |] eqn:U; try discriminate; cbn [late quietu building] in *.
    + injection E as <-. destruct (w_init s) eqn:I; constructor; rd; cbn [late quietu building] in *; rewrite ?I; auto. destruct G5 as [G5|[_ G5]]; [exact G5|discriminate].
    + destruct G5 as [V I]. destruct (w_en s) eqn:EN; [destruct (w_mon s); [discriminate|]|]; injection E as <-; constructor; rd; auto; rewrite ?V, ?I; try (split; [reflexivity|]; split; [lia|reflexivity]); [|congruence].
      intros _ _ _. exists W0. split; [reflexivity|discriminate].
    + destruct G5 as (V & K & I). destruct (Nat.ltb_spec k size).
      * injection E as <-. constructor; rd; auto.
        -- intros _. now apply some_more, G4.
        -- rewrite app_length. cbn. split; [lia|]. split; [lia|exact I].
      * injection E as <-. constructor; rd; auto. split; [lia|exact I].
    + injection E as <-. constructor; rd; auto. tauto.
    + destruct del, (w_init s) eqn:I; injection E as <-; constructor; unfold leave; rd; cbn [late quietu building] in *; rewrite ?I; auto; try discriminate.
    + destruct (nth_error (w_vec s) i) as [[p|]|]; injection E as <-; constructor; rd; cbn [late quietu building] in *; auto; discriminate.
    + injection E as <-. constructor; rd; cbn [late quietu building] in *; auto; discriminate.
    + injection E as <-. destruct del; constructor; unfold leave; rd; cbn [late quietu building] in *; auto; try discriminate; [away|].
      intros _. unfold some_alive. rd. rewrite G5. constructor.
    + injection E as <-. constructor; rd; cbn [late quietu building] in *; auto; discriminate.
    + destruct (w_mon s) as [[]|]; try discriminate; injection E as <-; constructor; rd; cbn [late quietu building] in *; auto; discriminate.
  - destruct (w_mon s) as [p|] eqn:M; [|discriminate].
    assert (KEEP : forall p' es, (p' = WEnd -> w_en s = false) -> ginv (mon s p' es)) by (intros p' es K; constructor; rd; auto; intros _ EN _; exists p'; split; [reflexivity|]; intro X; specialize (K X); congruence).
    destruct p; try discriminate.
    + injection E as <-. destruct (w_en s); apply KEEP; [discriminate|reflexivity].
    + injection E as <-. apply KEEP. destruct (w_en s); discriminate.
    + injection E as <-. apply KEEP. destruct (w_init s); discriminate.
    + injection E as <-. apply KEEP. destruct (w_en s); discriminate.
    + injection E as <-. apply KEEP. destruct (w_init s), k; discriminate.
    + injection E as <-. apply KEEP. discriminate.
    + destruct (i <? n); [|injection E as <-; apply KEEP; discriminate]. destruct (nth_error (w_vec s) i) as [[p|]|]; try discriminate; injection E as <-; apply KEEP; discriminate.
    + destruct (w_alive s p); [|discriminate]. injection E as <-. apply KEEP. destruct running; discriminate.
    + injection E as <-. apply KEEP. discriminate.
Qed.
Lemma ginv_run ls : forall s s', ginv s -> run s ls = WRun s' -> ginv s'.
Proof.
  induction ls as [|l ls IH]; intros s s' G E; cbn [wrun] in E; [injection E as <-; exact G|]. destruct (step s l) as [s1| | |] eqn:E1; try discriminate. eapply IH; [eapply ginv_step; eassumption|exact E].
Qed.

(** * Runs without destroy by the user *)
Definition taking (u : upc) : bool := match u with D1 _ | D2 _ _ | D3 _ | D4 _ | Gone => true | _ => false end.
Record pinv (s : wst) : Prop := mk_pinv
  { p_del : taking (w_user s) = true -> w_mon s = None;
    p_late : taking (w_user s) = true -> late (w_user s) = true;
    p_x2 : w_user s = X2 -> w_en s = false;
    p_early : (w_user s = UIdle \/ w_user s = I1 \/ w_user s = I2) -> w_init s = false -> w_mon s = None;
    p_vec : taking (w_user s) = false -> some_alive s;
    p_mon : match w_mon s with Some (W4 i n) => n <= length (w_vec s) | Some (W5 i n p) => i < n /\ n <= length (w_vec s) /\ w_alive s p = true | _ => True end }.
Lemma pinv_new en : pinv (w_new en).
Proof. constructor; cbn; try easy. intros _. constructor. Qed.
Ltac nope := intros [|[|]]; discriminate.
Lemma pinv_step s l s' : ginv s -> pinv s -> l <> LDestroy -> step s l = WRun s' -> pinv s'.
Proof.
  intros G [P1 P0 P2 P3 P4 P5] NL E. destruct l; cbn [wstep] in E.
  - destruct (w_user s) eqn:U; try discriminate. injection E as <-. constructor; rd; auto; discriminate.
  - destruct (w_user s) eqn:U; try discriminate. destruct (w_init s) eqn:I; injection E as <-; constructor; rd; rewrite ?I; auto; discriminate.
  - now destruct NL.
  - destruct (w_user s) eqn:U; try discriminate. injection E as <-. constructor; rd; auto; try discriminate; try nope.
  - destruct (w_user s) as [| | |k| |del|i del|del|del| | |] eqn:U; try discriminate.
    + injection E as <-. destruct (w_init s) eqn:I; constructor; rd; auto; try discriminate; intros _ X; congruence.
    + pose proof (g_len _ G) as X. rewrite U in X. destruct X as [_ I]. rewrite (P3 (or_intror (or_intror eq_refl)) I) in E, P5. destruct (w_en s); injection E as <-; constructor; rd; auto; try discriminate; try nope.
      rewrite (P3 (or_intror (or_intror eq_refl)) I). exact Logic.I.
    + destruct (k <? size); injection E as <-; constructor; rd; auto; try discriminate; try nope.
      * intros _. apply some_more. now apply P4.
      * destruct (w_mon s) as [[]|]; auto; rewrite app_length; cbn [length].
        -- lia.
        -- destruct P5 as (Q1 & Q2 & Q3). split; [exact Q1|]. split; [lia|]. unfold upd. destruct (Nat.eqb p (w_fresh s)); auto.
    + injection E as <-. constructor; rd; auto; try discriminate.
    + assert (del = true) as -> by (destruct del; [reflexivity|discriminate (P0 eq_refl)]). rewrite (P1 eq_refl) in *. destruct (w_init s) eqn:I; injection E as <-; constructor; unfold leave; rd; auto; try discriminate; try nope; rewrite (P1 eq_refl); exact Logic.I.
    + assert (del = true) as -> by (destruct del; [reflexivity|discriminate (P0 eq_refl)]). destruct (nth_error (w_vec s) i) as [[p|]|]; injection E as <-; constructor; rd; auto; try discriminate; try nope; rewrite (P1 eq_refl); exact Logic.I.
    + assert (del = true) as -> by (destruct del; [reflexivity|discriminate (P0 eq_refl)]). injection E as <-; constructor; rd; auto; try discriminate; try nope; rewrite (P1 eq_refl); exact Logic.I.
    + assert (del = true) as -> by (destruct del; [reflexivity|discriminate (P0 eq_refl)]). injection E as <-; constructor; unfold leave; rd; auto; try discriminate; try nope; rewrite (P1 eq_refl); exact Logic.I.
    + injection E as <-. constructor; rd; auto; try discriminate; try nope.
    + destruct (w_mon s) as [[]|] eqn:M; try discriminate; injection E as <-; constructor; rd; auto; try discriminate; try nope; rewrite ?M; exact Logic.I.
  - destruct (w_mon s) as [p|] eqn:M; [|discriminate].
    assert (NT : taking (w_user s) = false) by (destruct (taking (w_user s)) eqn:T; [discriminate (P1 eq_refl)|reflexivity]).
    assert (KEEP : forall p' es, match p' with W4 i n => n <= length (w_vec s) | W5 i n p => i < n /\ n <= length (w_vec s) /\ w_alive s p = true | _ => True end -> pinv (mon s p' es)).
    { intros p' es H. constructor; rd; auto; try congruence. intros X Y. discriminate (P3 X Y). }
    destruct p; try discriminate.
    + injection E as <-. destruct (w_en s); apply KEEP; exact Logic.I.
    + injection E as <-. apply KEEP. destruct (w_en s); exact Logic.I.
    + injection E as <-. apply KEEP. destruct (w_init s); exact Logic.I.
    + injection E as <-. apply KEEP. destruct (w_en s); exact Logic.I.
    + injection E as <-. apply KEEP. destruct (w_init s), k; exact Logic.I.
    + injection E as <-. apply KEEP. lia.
    + destruct (Nat.ltb_spec i n); [|injection E as <-; now apply KEEP]. pose proof (P4 NT) as A. destruct (nth_error (w_vec s) i) as [[p|]|] eqn:NE; try discriminate; injection E as <-; apply KEEP; [|exact Logic.I].
      split; [assumption|]. split; [exact P5|]. apply nth_error_In in NE. unfold some_alive in A. rewrite Forall_forall in A. destruct (A _ NE) as (q & X & Y). now injection X as ->.
    + destruct (w_alive s p); [|discriminate]. injection E as <-. apply KEEP. destruct running; [lia|exact Logic.I].
    + injection E as <-. now apply KEEP.
Qed.
Lemma pinv_safe s l : ginv s -> pinv s -> step s l <> WCrash /\ step s l <> WUndef.
Proof.
  intros G [P1 P0 P2 P3 P4 P5]. destruct l; cbn [wstep].
  - destruct (w_user s); split; discriminate.
  - destruct (w_user s); split; discriminate.
  - destruct (w_user s); split; discriminate.
  - destruct (w_user s); split; discriminate.
  - destruct (w_user s) as [| | |k| |del|i del|del|del| | |] eqn:U; try (split; discriminate).
    + pose proof (g_len _ G) as X. rewrite U in X. destruct X as [_ I]. rewrite (P3 (or_intror (or_intror eq_refl)) I). destruct (w_en s); split; discriminate.
    + destruct (k <? size); split; discriminate.
    + destruct (nth_error (w_vec s) i) as [[p|]|]; split; discriminate.
    + destruct (w_mon s) as [[]|]; split; discriminate.
  - destruct (w_mon s) as [p|] eqn:M; [|split; discriminate]. destruct p; try (split; discriminate).
    + destruct (Nat.ltb_spec i n); [|split; discriminate]. destruct (nth_error (w_vec s) i) as [[p|]|] eqn:NE; try (split; discriminate). apply nth_error_None in NE. lia.
    + destruct P5 as (_ & _ & ->). split; discriminate.
Qed.
Definition no_destroy (ls : list wlab) : Prop := ~ In LDestroy ls.
Lemma plain_run ls : forall s, ginv s -> pinv s -> no_destroy ls -> (run s ls <> WCrash /\ run s ls <> WUndef) /\ forall s', run s ls = WRun s' -> ginv s' /\ pinv s'.
Proof.
  induction ls as [|l ls IH]; intros s G P N; cbn [wrun]; [split; [split; discriminate|]; intros s' E; injection E as <-; auto|].
  pose proof (pinv_safe s l G P) as [S1 S2]. destruct (step s l) as [s1| | |] eqn:E1; [|now destruct S1|now destruct S2|].
  - apply IH; [eapply ginv_step; eassumption| |intro X; apply N; now right]. eapply pinv_step; [exact G|exact P| |exact E1]. intros ->. apply N. now left.
  - split; [split; discriminate|discriminate].
Qed.

(** * Deletion ends *)
Definition left (p : mpc) (n : nat) : nat :=
  match p with WEnd => 0 | W0 => 1 | W6 => 2 | W5 i m _ => 2 * (m - i) + 2 | W4 i m => 2 * (m - i) + 3 | W3 => 2 * n + 4 | W2 _ => 2 * n + 5 | W2b _ => 2 * n + 6 | W1 => 2 * n + 6 | W1b => 2 * n + 7 end.
Lemma mon_less s p b : ginv s -> pinv s -> w_user s = X2 -> w_mon s = Some p -> p <> WEnd ->
  exists s' p', step s (LMon b) = WRun s' /\ w_user s' = X2 /\ w_mon s' = Some p' /\ w_vec s' = w_vec s /\ left p' (length (w_vec s)) < left p (length (w_vec s)).
Proof.
  intros G P U M NE. pose proof (p_x2 _ P U) as EN. pose proof (p_mon _ P) as PM. rewrite M in PM. pose proof (pinv_safe s (LMon b) G P) as [S1 S2]. cbn [wstep] in *. rewrite M in *. rewrite EN in *. destruct p; try (now destruct NE).
  - eexists. eexists. split; [reflexivity|]. rd. repeat split; auto. 
  - eexists. eexists. split; [reflexivity|]. rd. repeat split; auto. cbn. lia.
  - eexists. eexists. split; [reflexivity|]. rd. repeat split; auto. destruct (w_init s); cbn; lia.
  - eexists. eexists. split; [reflexivity|]. rd. repeat split; auto. cbn. lia.
  - eexists. eexists. split; [reflexivity|]. rd. repeat split; auto. destruct (w_init s), k; cbn; lia.
  - eexists. eexists. split; [reflexivity|]. rd. repeat split; auto. cbn. lia.
  - destruct (Nat.ltb_spec i n).
    + destruct (nth_error (w_vec s) i) as [[p|]|]; [| |congruence]; (eexists; eexists; split; [reflexivity|]; rd; repeat split; auto; cbn; lia).
    + eexists. eexists. split; [reflexivity|]. rd. repeat split; auto. cbn. lia.
  - destruct (w_alive s p); [|congruence]. eexists. eexists. split; [reflexivity|]. rd. repeat split; auto. destruct b; cbn; lia.
  - eexists. eexists. split; [reflexivity|]. rd. repeat split; auto.
Qed.
Lemma mon_ends bs : forall s p, ginv s -> pinv s -> w_user s = X2 -> w_mon s = Some p -> left p (length (w_vec s)) <= length bs ->
  exists k s', k <= length bs /\ run s (map LMon (firstn k bs)) = WRun s' /\ ginv s' /\ pinv s' /\ w_user s' = X2 /\ w_mon s' = Some WEnd /\ w_vec s' = w_vec s.
Proof.
  induction bs as [|b bs IH]; intros s p G P U M L.
  - exists 0, s. cbn. repeat split; auto; try apply G; try apply P. rewrite M. destruct p; cbn in L; try lia. reflexivity.
  - destruct (match p with WEnd => true | _ => false end) eqn:PE.
    + exists 0, s. cbn. split; [lia|]. repeat split; auto; try apply G; try apply P. rewrite M. now destruct p.
    + assert (NE : p <> WEnd) by (intros ->; discriminate). destruct (mon_less s p b G P U M NE) as (s1 & p1 & E1 & U1 & M1 & V1 & L1).
      assert (G1 : ginv s1) by (eapply ginv_step; eassumption). assert (P1 : pinv s1) by (apply (pinv_step s (LMon b) s1 G P); [discriminate|exact E1]).
      destruct (IH s1 p1 G1 P1 U1 M1) as (k & s2 & K & E2 & X); [rewrite V1; cbn in L; lia|]. rewrite V1 in X. exists (S k), s2. split; [cbn; lia|]. split; [|exact X]. cbn [firstn map wrun]. now rewrite E1.
Qed.
Lemma null_len i l : length (null_at i l) = length l.
Proof. revert i. induction l as [|x l IH]; intros [|i]; cbn; auto. Qed.
Lemma null_other i j l : i <> j -> nth_error (null_at i l) j = nth_error l j.
Proof. revert i j. induction l as [|x l IH]; intros [|i] [|j] N; cbn; auto; congruence. Qed.
(** The rest of a destroy that has begun to delete. *)
Lemma take_down n : forall s i del, w_user s = D2 i del -> length (w_vec s) - i = n ->
  exists s', run s (repeat LUser (n + 3)) = WRun s' /\ w_user s' = (if del then Gone else UIdle) /\ w_init s' = false /\ w_en s' = w_en s /\ w_mon s' = w_mon s /\
    w_vec s' = [] /\ (forall q, w_alive s q = false -> w_alive s' q = false) /\ (forall j q, i <= j -> nth_error (w_vec s) j = Some (Some q) -> w_alive s' q = false).
Proof.
  induction n as [|n IH]; intros s i del U L.
  - assert (NE : nth_error (w_vec s) i = None) by (apply nth_error_None; lia). cbn [plus repeat wrun wstep]. rewrite U, NE. rd. eexists. split; [reflexivity|]. unfold leave. rd. repeat (split; [now auto|]).
    intros j q J N. assert (j < length (w_vec s)) by (apply nth_error_Some; congruence). lia.
  - assert (LT : i < length (w_vec s)) by lia. destruct (nth_error (w_vec s) i) as [x|] eqn:NE; [|apply nth_error_None in NE; lia]. cbn [plus repeat wrun wstep]. rewrite U, NE. destruct x as [p|].
    + match goal with |- context [run ?z _] => destruct (IH z (S i) del) as (s2 & E2 & A1 & A2 & A3 & A4 & A5 & A6 & A7) end; [reflexivity|rd; rewrite null_len; lia|]. exists s2. split; [exact E2|]. rd. repeat (split; [assumption|]). split.
      * intros q Q. apply A6. unfold upd. now destruct (Nat.eqb q p).
      * intros j q J N. destruct (Nat.eq_dec i j) as [<-|D]; [|apply (A7 j); [lia|now rewrite null_other]]. rewrite NE in N. injection N as <-. apply A6, upd_same.
    + match goal with |- context [run ?z _] => destruct (IH z (S i) del) as (s2 & E2 & A1 & A2 & A3 & A4 & A5 & A6 & A7) end; [reflexivity|rd; lia|]. exists s2. split; [exact E2|]. rd. repeat (split; [assumption|]). 
      intros j q J N. destruct (Nat.eq_dec i j) as [<-|D]; [congruence|]. apply (A7 j); [lia|exact N].
Qed.
(** The loop of init that makes the primary threads. *)
Lemma make_up n : forall s k, w_user s = I3 k -> size - k = n ->
  exists s', run s (repeat LUser (n + 1)) = WRun s' /\ w_user s' = I4 /\ w_mon s' = w_mon s /\ w_init s' = w_init s /\ w_en s' = w_en s.
Proof.
  induction n as [|n IH]; intros s k U L; cbn [plus repeat wrun wstep]; rewrite U.
  - destruct (Nat.ltb_spec k size); [lia|]. eexists. split; [reflexivity|]. rd. auto.
  - destruct (Nat.ltb_spec k size); [|lia]. match goal with |- context [run ?z _] => destruct (IH z (S k)) as (s2 & E2 & X) end; [reflexivity|lia|]. exists s2. split; [exact E2|]. rd. exact X.
Qed.
(** How far the monitor of a pool that is set up is from looking at its threads. *)
Definition far (p : mpc) : nat :=
  match p with WEnd => 0 | W3 => 0 | W2b k => 2 * k + 1 | W2 k => 2 * k + 2 | W1b => 2 * span + 3 | W1 => 2 * span + 4 | W0 => 2 * span + 5 | W6 => 2 * span + 6 | W5 _ _ _ => 2 * span + 7 | W4 _ _ => 2 * span + 8 end.
Lemma mon_looks n : forall s p, w_user s = UIdle -> w_en s = true -> w_init s = true -> w_mon s = Some p -> p <> WEnd -> far p <= n ->
  exists m, m <= n /\ (run s (repeat (LMon false) m) = WUndef \/
    exists s', run s (repeat (LMon false) m) = WRun s' /\ w_user s' = UIdle /\ w_init s' = true /\ w_mon s' = Some W3).
Proof.
  induction n as [|n IH]; intros s p U EN I M NE F.
  - exists 0. split; [lia|]. right. exists s. destruct p; cbn in F; try lia; [now auto|now destruct NE].
  - assert (D : p = W3 \/ step s (LMon false) = WUndef \/ exists s1 p1, step s (LMon false) = WRun s1 /\ w_user s1 = UIdle /\ w_en s1 = true /\ w_init s1 = true /\ w_mon s1 = Some p1 /\ p1 <> WEnd /\ far p1 <= n).
    { cbn [wstep]. rewrite M, ?EN, ?I. destruct p; try (now left); try (now destruct NE); right.
      - right. eexists. eexists. split; [reflexivity|]. rd. repeat (split; [now auto|]). cbn in *. lia.
      - right. eexists. eexists. split; [reflexivity|]. rd. repeat (split; [now auto|]). cbn in *. lia.
      - right. eexists. eexists. split; [reflexivity|]. rd. repeat (split; [now auto|]). cbn in *. lia.
      - right. eexists. eexists. split; [reflexivity|]. rd. repeat (split; [now auto|]). cbn in *. lia.
      - right. eexists. eexists. split; [reflexivity|]. rd. repeat (split; [now auto|]). split; [destruct k; discriminate|]. destruct k; cbn in *; lia.
      - destruct (i <? n0).
        + destruct (nth_error (w_vec s) i) as [[p|]|]; [right|right|now left]; (eexists; eexists; split; [reflexivity|]; rd; repeat (split; [now auto|]); cbn in *; lia).
        + right. eexists. eexists. split; [reflexivity|]. rd. repeat (split; [now auto|]). cbn in *. lia.
      - destruct (w_alive s p); [right|now left]. eexists. eexists. split; [reflexivity|]. rd. repeat (split; [now auto|]). cbn in *. lia.
      - right. eexists. eexists. split; [reflexivity|]. rd. repeat (split; [now auto|]). cbn in *. lia. }
    destruct D as [-> |[D|(s1 & p1 & E1 & U1 & EN1 & I1' & M1 & NE1 & F1)]].
    + exists 0. split; [lia|]. right. exists s. now auto.
    + exists 1. split; [lia|]. left. cbn [repeat wrun]. now rewrite D.
    + destruct (IH s1 p1 U1 EN1 I1' M1 NE1 F1) as (m & L & H). exists (S m). split; [lia|]. cbn [repeat wrun]. rewrite E1. exact H.
Qed.
Lemma before_lt m i j : before m i j -> i < j.
Proof. induction 1; lia. Qed.
Lemma adjacent m f w w' : (w = true \/ w' = true) -> flag_race (m ++ [(Monitor, WNote f w)] ++ [(User, WNote f w')]) f.
Proof.
  intro W. cbn [app]. set (m' := m ++ [(Monitor, WNote f w); (User, WNote f w')]).
  assert (E1 : nth_error m' (length m) = Some (Monitor, WNote f w)) by (unfold m'; rewrite nth_error_app2, Nat.sub_diag by lia; reflexivity).
  assert (E2 : nth_error m' (S (length m)) = Some (User, WNote f w')) by (unfold m'; rewrite nth_error_app2, Nat.sub_succ_l, Nat.sub_diag by lia; reflexivity).
  exists (length m), (S (length m)), Monitor, User, w, w'. split; [lia|]. split; [exact E1|]. split; [exact E2|]. split; [exact W|]. split.
  - intro H. inversion H as [i j a x y L H1 H2|i j a b n L H1 H2|i k j H1 H2]; subst; [congruence|congruence|]. apply before_lt in H1, H2. lia.
  - intro H. apply before_lt in H. lia.
Qed.
End C.
