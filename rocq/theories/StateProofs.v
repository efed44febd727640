(** Invariants of the model of cancel, suspend and resume. *)
From Verif Require Import StateSpec.
Local Open Scope nat_scope.
Local Open Scope list_scope.

Definition pushed (n : nat) (st : nat -> estate) (repo : estate) (c : cpc) : Prop :=
  match c with
  | CIdle => forall e, e < n -> st e = repo
  | CStore x r => exists d, seq 0 n = d ++ r /\ forall e, In e d -> st e = x
  | CNote x r => exists d e r', r = e :: r' /\ seq 0 n = d ++ r /\ (forall e', In e' (d ++ [e]) -> st e' = x) /\ x <> Suspended
  end.
Definition iters (p : epc) : option nat := match p with ENot => Some 0 | ETest i | EBody i | ECheck i _ | ELock i _ | EFall i _ | ESleep i _ _ | EHold i _ => Some i | EFin _ => None end.
Definition bad (p : epc) : bool := match p with ECheck _ ok | ELock _ ok | EFall _ ok | ESleep _ ok _ | EHold _ ok | EFin ok => negb ok | _ => false end.
Record kinv (s : kst) : Prop :=
  { ki_push : pushed (k_n s) (k_st s) (k_repo s) (k_ctl s);
    ki_can : forall x, last_ret x (k_log s) = true -> k_ctl s = CIdle /\ k_repo s = x;
    ki_log : no_start (k_log s);
    ki_quiet : in_run (k_main s) = true -> existsb is_req (this_run (k_log s)) = false -> k_ctl s = CIdle /\ k_repo s = Normal;
    ki_it : forall e i, e < k_n s -> in_run (k_main s) = true -> iters (k_pc s e) = Some i -> starts e (this_run (k_log s)) = i /\ i <= k_loop s e;
    ki_fin : forall e, e < k_n s -> in_run (k_main s) = true -> k_pc s e = EFin true -> In (KSkip e) (this_run (k_log s)) \/ starts e (this_run (k_log s)) = k_loop s e;
    ki_le : forall e, in_run (k_main s) = true -> e < k_n s -> starts e (this_run (k_log s)) <= k_loop s e;
    ki_skip : forall e, in_run (k_main s) = true -> In (KSkip e) (this_run (k_log s)) -> existsb is_req (this_run (k_log s)) = true;
    ki_bad : in_run (k_main s) = true -> forall e, In (KFail e) (this_run (k_log s)) <-> e < k_n s /\ bad (k_pc s e) = true }.
Lemma kinv_new n lp : kinv (k_new n lp).
Proof. constructor; cbn; easy. Qed.
Lemma estate_eqb_eq a b : estate_eqb a b = true <-> a = b.
Proof. destruct a, b; split; easy. Qed.
Lemma estate_eqb_neq a b : estate_eqb a b = false <-> a <> b.
Proof. destruct a, b; split; easy. Qed.
(** Steps of the controlling thread: elements do not move (but for the flag of a sleeping one) and only requests and returns are logged. *)
Definition ctlev (x : kev) : bool := match x with KReq _ | KRet _ => true | _ => false end.
Lemma ctl_run lg h : forallb ctlev lg = true -> this_run (lg ++ h) = lg ++ this_run h /\ (forall e, starts e (lg ++ this_run h) = starts e (this_run h)) /\ (no_start (lg ++ h) <-> no_start h) /\
  (forall x, ctlev x = false -> In x (lg ++ this_run h) -> In x (this_run h)).
Proof.
  induction lg as [|y r IH]; intros H; [easy|]. cbn [forallb] in H. apply andb_prop in H. destruct H as [H1 H2]. destruct (IH H2) as (A & B & C & D). destruct y; try discriminate H1; cbn [app this_run no_start]; (split; [now rewrite A|]); (split; [exact B|]); (split; [exact C|]); intros z Z [<-|X]; try discriminate Z; auto.
Qed.
Lemma kinv_ctl s s' lg : kinv s -> k_n s' = k_n s -> k_loop s' = k_loop s -> k_main s' = k_main s -> (forall e, iters (k_pc s' e) = iters (k_pc s e) /\ bad (k_pc s' e) = bad (k_pc s e) /\ (k_pc s' e = EFin true -> k_pc s e = EFin true)) ->
  k_log s' = lg ++ k_log s -> forallb ctlev lg = true -> pushed (k_n s') (k_st s') (k_repo s') (k_ctl s') -> (forall x, last_ret x (k_log s') = true -> k_ctl s' = CIdle /\ k_repo s' = x) ->
  (existsb is_req (lg ++ this_run (k_log s)) = false -> in_run (k_main s) = true -> k_ctl s' = CIdle /\ k_repo s' = Normal) -> kinv s'.
Proof.
  intros [Ip Ic Il Iq Ii If Ile Is Ib] N L M P LG Q PU CA QU. destruct (ctl_run lg (k_log s) Q) as (A & B & C & D).
  assert (IN : forall x, ctlev x = false -> In x (this_run (k_log s')) <-> In x (this_run (k_log s))) by (intros x X; rewrite LG, A; split; [now apply D|intros H; apply in_or_app; now right]).
  constructor; rewrite ?N, ?L, ?M in *; try easy.
  - rewrite LG. now apply C.
  - rewrite LG, A. auto.
  - intros e i H I. destruct (P e) as (P1 & _). rewrite P1, LG, A, B. apply Ii; auto.
  - intros e H I F. apply P in F. destruct (If e H I F) as [X|X]; [left; now apply IN|right]. now rewrite LG, A, B.
  - intros e I H. rewrite LG, A, B. auto.
  - intros e I H. apply IN in H; [|easy]. rewrite LG, A, existsb_app, (Is e I H). apply orb_true_r.
  - intros I e. rewrite IN by easy. destruct (P e) as (_ & P2 & _). rewrite P2. auto.
Qed.
Lemma kinv_call s x s' : kinv s -> k_step s (LCall x) = Some s' -> kinv s'.
Proof.
  intros I E. pose proof (ki_push _ I) as P. cbn [k_step] in E. destruct (k_ctl s) eqn:C; try discriminate. destruct (estate_eqb (k_repo s) x) eqn:R; injection E as <-.
  - apply estate_eqb_eq in R. apply (kinv_ctl s _ [KRet x; KReq x]); try easy. cbn. intros y Y. apply estate_eqb_eq in Y. now subst.
  - apply (kinv_ctl s _ [KReq x]); try easy. cbn. exists []. split; [easy|]. intros e [].
Qed.
Lemma kinv_lctl s s' : kinv s -> k_step s LCtl = Some s' -> kinv s'.
Proof.
  intros I E. pose proof (ki_push _ I) as P. pose proof (ki_can _ I) as CA. pose proof (ki_quiet _ I) as QU. cbn [k_step] in E. destruct (k_ctl s) as [|x [|e r]|x [|e r]] eqn:C; try discriminate; injection E as <-.
  - apply (kinv_ctl s _ [KRet x]); try easy; cbn.
    + intros e H. destruct P as (d & P1 & P2). apply P2. rewrite app_nil_r in P1. rewrite <- P1. apply in_seq. lia.
    + intros y Y. apply estate_eqb_eq in Y. now subst.
    + intros H I1. destruct (QU I1 H). easy.
  - apply (kinv_ctl s _ []); try easy; cbn [k_n k_st k_repo k_ctl k_log k_main app].
    + destruct P as (d & P1 & P2). assert (F : forall e', In e' (d ++ [e]) -> upd (k_st s) e x e' = x).
      { intros e' H. unfold upd. destruct (Nat.eqb_spec e' e) as [|N]; [easy|]. apply in_app_or in H. destruct H as [H|[H|[]]]; [auto|congruence]. }
      destruct (estate_eqb x Suspended) eqn:S; cbn [pushed].
      * exists (d ++ [e]). split; [now rewrite <- app_assoc|easy].
      * exists d, e, r. apply estate_eqb_neq in S. easy.
    + intros y H. destruct (CA y H). discriminate.
    + intros H I1. destruct (QU I1 H). discriminate.
  - apply (kinv_ctl s _ []); try easy; cbn [k_n k_st k_repo k_ctl k_log k_main k_pc app].
    + intros e'. destruct (k_pc s e) eqn:PE; try easy. unfold upd. destruct (Nat.eqb_spec e' e) as [->|]; [rewrite PE; easy|easy].
    + cbn [pushed]. destruct P as (d & e0 & r0 & P0 & P1 & P2 & P3). injection P0 as <- <-. exists (d ++ [e]). split; [now rewrite <- app_assoc|easy].
    + intros y H. destruct (CA y H). discriminate.
    + intros H I1. destruct (QU I1 H). discriminate.
Qed.
Lemma kinv_main s l s' : kinv s -> (match l with LProcess _ | LRun | LMain => True | _ => False end) -> k_step s l = Some s' -> kinv s'.
Proof.
  intros [Ip Ic Il Iq Ii If Ile Is Ib] LL E.
  assert (G : forall m lg, in_run m = false -> (forall h, (forall x, last_ret x (lg ++ h) = last_ret x h) /\ (no_start h -> no_start (lg ++ h))) -> kinv (set_main s m lg)).
  { intros m lg M H. destruct (H (k_log s)) as [H1 H2]. unfold set_main. constructor; cbn [k_n k_st k_repo k_ctl k_log k_main k_pc app]; rewrite ?M; try easy; [intros x; rewrite H1; auto|auto]. }
  destruct l; try easy; cbn [k_step] in E.
  - destruct (k_main s); try discriminate. injection E as <-. now apply G.
  - destruct (k_main s); try discriminate. injection E as <-. now apply G.
  - destruct (k_main s) as [|k ok|o|o] eqn:M; try discriminate.
    + destruct k; [injection E as <-; now apply G|]. destruct (ok && _); injection E as <-; now apply G.
    + destruct (k_ctl s) eqn:C; try discriminate. injection E as <-. constructor; cbn; try easy.
      * intros e H. destruct (estate_eqb (k_repo s) Normal) eqn:R; [|easy]. apply estate_eqb_eq in R. rewrite <- R. now apply Ip.
      * intros e i H _ X. injection X as <-. cbn. lia.
      * intros e _ H. cbn. lia.
    + destruct (engine_done s); [|discriminate]. injection E as <-. destruct o; now apply G.
Qed.
Definition elemev (e : nat) (x : kev) : bool := match x with KStart a | KAgain a | KFail a | KSkip a => Nat.eqb a e | _ => false end.
Lemma kinv_elem_gen s e p lg : kinv s -> e < k_n s -> in_run (k_main s) = true -> (lg = [] \/ exists x, lg = [x] /\ elemev e x = true) -> fin (k_pc s e) = false ->
  (In (KStart e) lg -> k_st s e = Normal) -> (In (KSkip e) lg -> k_st s e <> Normal) ->
  (forall i, iters p = Some i -> exists j, iters (k_pc s e) = Some j /\ i = j + length (filter (is_start e) lg) /\ i <= k_loop s e) ->
  (iters p = None -> exists j, iters (k_pc s e) = Some j /\ ~ In (KStart e) lg) ->
  (p = EFin true -> In (KSkip e) lg \/ iters (k_pc s e) = Some (k_loop s e)) ->
  (bad p = true <-> In (KFail e) lg \/ bad (k_pc s e) = true) -> kinv (set_pc s e p lg).
Proof.
  intros [Ip Ic Il Iq Ii If Ile Is Ib] He R LG NF ST SK IT IN FI BA.
  assert (TR : this_run (lg ++ k_log s) = lg ++ this_run (k_log s)) by (destruct LG as [->|(x & -> & X)]; [easy|destruct x; easy]).
  assert (OT : forall e', e' <> e -> starts e' (lg ++ this_run (k_log s)) = starts e' (this_run (k_log s)) /\ (forall x, In x (lg ++ this_run (k_log s)) -> elemev e' x = true -> In x (this_run (k_log s)))).
  { intros e' N. destruct LG as [->|(x & -> & X)]; [easy|]. cbn [app]. split.
    - unfold starts. cbn [filter]. destruct x; try discriminate X; cbn in X |- *; try easy. apply Nat.eqb_eq in X. subst. destruct (Nat.eqb_spec e e'); [congruence|easy].
    - intros y [<-|Y] Z; [|easy]. exfalso. destruct x; cbn in X, Z; try discriminate; apply Nat.eqb_eq in X; apply Nat.eqb_eq in Z; congruence. }
  assert (ME : starts e (lg ++ this_run (k_log s)) = length (filter (is_start e) lg) + starts e (this_run (k_log s))) by (unfold starts; rewrite filter_app, app_length; lia).
  assert (CC : forall x, last_ret x (lg ++ k_log s) = last_ret x (k_log s)) by (destruct LG as [->|(x & -> & X)]; [easy|destruct x; easy]).
  assert (RQ : existsb is_req (lg ++ this_run (k_log s)) = existsb is_req (this_run (k_log s))) by (destruct LG as [->|(x & -> & X)]; [easy|destruct x; easy]).
  unfold set_pc. constructor; cbn [k_n k_loop k_st k_repo k_ctl k_log k_main k_pc]; rewrite ?TR, ?RQ; try easy.
  - intros x. rewrite CC. auto.
  - destruct LG as [->|(x & -> & X)]; [easy|]. destruct x; try discriminate X; cbn in X |- *; try easy. apply Nat.eqb_eq in X. subst. split; [|easy]. split; (match goal with |- last_ret ?x _ = false => destruct (last_ret x (k_log s)) eqn:CN; [|easy]; exfalso; destruct (Ic x CN) as [C1 C2] end); rewrite C1 in Ip; cbn in Ip; rewrite (Ip e He), C2 in ST; now specialize (ST (or_introl eq_refl)).
  - intros e' i He' _ X. unfold upd in X. destruct (Nat.eqb_spec e' e) as [->|N].
    + destruct (IT i X) as (j & J1 & J2 & J3). destruct (Ii e j He R J1) as [K1 _]. rewrite ME, K1. lia.
    + destruct (OT e' N) as [O _]. rewrite O. now apply Ii.
  - intros e' He' _ X. unfold upd in X. destruct (Nat.eqb_spec e' e) as [->|N].
    + destruct (FI X) as [F|F]; [left; apply in_or_app; now left|right]. destruct (IN ltac:(now rewrite X)) as (j & J1 & J2). rewrite F in J1. injection J1 as <-. destruct (Ii e _ He R F) as [K1 _]. rewrite ME, K1.
      assert (Z : length (filter (is_start e) lg) = 0); [|lia]. destruct LG as [->|(y & -> & Y)]; [easy|]. destruct y; try easy. cbn in Y |- *. apply Nat.eqb_eq in Y. subst. exfalso. apply J2. now left.
    + destruct (OT e' N) as [O _]. rewrite O. destruct (If e' He' R X) as [F|F]; [left; apply in_or_app; now right|now right].
  - intros e' _ He'. destruct (Nat.eq_dec e' e) as [->|N]; [|destruct (OT e' N) as [-> _]; auto]. rewrite ME.
    destruct (iters p) as [i|] eqn:P.
    + destruct (IT i eq_refl) as (j & J1 & J2 & J3). destruct (Ii e j He R J1) as [K1 _]. lia.
    + destruct (IN eq_refl) as (j & J1 & J2). specialize (Ile e R He). assert (Z : length (filter (is_start e) lg) = 0); [|lia]. destruct LG as [->|(y & -> & Y)]; [easy|]. destruct y; try easy. cbn in Y |- *. apply Nat.eqb_eq in Y. subst. exfalso. apply J2. now left.
  - intros e' _ H. apply in_app_or in H. destruct H as [H|H]; [|now apply (Is e')]. destruct (existsb is_req (this_run (k_log s))) eqn:Q; [easy|]. exfalso. destruct (Iq R eq_refl) as [Q1 Q2].
    assert (e' = e) by (destruct LG as [->|(y & -> & Y)]; [easy|]; destruct H as [->|[]]; cbn in Y; now apply Nat.eqb_eq in Y). subst e'. apply (SK H). rewrite Q1 in Ip. cbn in Ip. rewrite (Ip e He). easy.
  - intros _ e'. unfold upd. destruct (Nat.eqb_spec e' e) as [->|N].
    + rewrite BA. specialize (Ib R e). split.
      * intros H. apply in_app_or in H. split; [easy|]. destruct H as [H|H]; [now left|right]. now apply Ib.
      * intros [_ [H|H]]; apply in_or_app; [now left|right]. now apply Ib.
    + rewrite <- (Ib R e'). split; [|intros H; apply in_or_app; now right]. intros H. destruct (OT e' N) as [_ O]. apply O; [easy|]. cbn. apply Nat.eqb_refl.
Qed.
Lemma kinv_elem s e b thr s' : kinv s -> k_step s (LElem e b thr) = Some s' -> kinv s'.
Proof.
  intros I E. cbn [k_step] in E. destruct (Nat.ltb_spec e (k_n s)) as [He|]; [|discriminate]. destruct (in_run (k_main s)) eqn:R; [|discriminate]. cbn [andb] in E. pose proof (ki_it _ I e) as IT.
  assert (G : forall p lg, (lg = [] \/ exists x, lg = [x] /\ elemev e x = true) -> fin (k_pc s e) = false ->
     (In (KStart e) lg -> k_st s e = Normal) -> (In (KSkip e) lg -> k_st s e <> Normal) ->
     (forall i, iters p = Some i -> exists j, iters (k_pc s e) = Some j /\ i = j + length (filter (is_start e) lg) /\ i <= k_loop s e) ->
     (iters p = None -> exists j, iters (k_pc s e) = Some j /\ ~ In (KStart e) lg) ->
     (p = EFin true -> In (KSkip e) lg \/ iters (k_pc s e) = Some (k_loop s e)) ->
     (bad p = true <-> In (KFail e) lg \/ bad (k_pc s e) = true) -> kinv (set_pc s e p lg)) by (intros; now apply kinv_elem_gen).
  destruct (k_pc s e) as [|i|i|i ok|i ok|i ok|i ok w|i ok|ok] eqn:P; cbn [iters fin bad] in *.
  - destruct b; [|discriminate]. injection E as <-. apply G; cbn; try easy; [now left| |intuition discriminate]. intros i X. injection X as <-. exists 0. split; [easy|]. split; [easy|lia].
  - destruct (IT i He R eq_refl) as [_ LE]. destruct (Nat.ltb_spec i (k_loop s e)) as [L|L].
    + destruct (estate_eqb (k_st s e) Normal) eqn:S; injection E as <-.
      * apply estate_eqb_eq in S. apply G; cbn; rewrite ?Nat.eqb_refl; try easy; [right; eexists; split; [reflexivity|]; cbn; now rewrite Nat.eqb_refl|intros [X|[]]; discriminate| |intuition discriminate]. intros j X. injection X as <-. exists i. split; [easy|]. cbn. lia.
      * apply estate_eqb_neq in S. apply G; cbn; try easy; [right; eexists; split; [reflexivity|]; cbn; now rewrite Nat.eqb_refl|intros [X|[]]; discriminate| |auto|intuition discriminate]. intros _. exists i. split; [easy|]. intros [X|[]]. discriminate.
    + injection E as <-. assert (i = k_loop s e) by lia. subst i. apply G; cbn; try easy; [now left| |auto|intuition discriminate]. intros _. eexists. split; [reflexivity|easy].
  - destruct (IT i He R eq_refl) as [_ LE]. destruct thr; [|destruct b]; injection E as <-; apply G; cbn; try easy; try (now left); try (right; eexists; split; [reflexivity|]; cbn; now rewrite Nat.eqb_refl); try (intros [X|[]]; discriminate);
      try (intros _; exists i; split; [easy|]; intros [X|[]]; discriminate); try (intros j X; injection X as <-; exists i; split; [easy|]; cbn; lia); try (intuition discriminate); intuition.
  - destruct (IT i He R eq_refl) as [_ LE]. destruct (estate_eqb (k_st s e) Suspended); injection E as <-; apply G; cbn; try easy; try (now left); try tauto; intros j X; injection X as <-; exists i; split; try easy; cbn; lia.
  - destruct (IT i He R eq_refl) as [_ LE]. destruct (estate_eqb (k_st s e) Suspended); injection E as <-; apply G; cbn; try easy; try (now left); try tauto; intros j X; injection X as <-; exists i; split; try easy; cbn; lia.
  - destruct (IT i He R eq_refl) as [_ LE]. injection E as <-; apply G; cbn; try easy; try (now left); try tauto; intros j X; injection X as <-; exists i; split; try easy; cbn; lia.
  - destruct (IT i He R eq_refl) as [_ LE]. destruct (w || b)%bool; [|discriminate]. injection E as <-; apply G; cbn; try easy; try (now left); try tauto; intros j X; injection X as <-; exists i; split; try easy; cbn; lia.
  - destruct (IT i He R eq_refl) as [_ LE]. destruct (b && ok)%bool eqn:BO; [|destruct ok]; injection E as <-; apply G; cbn; try easy; try (now left); try (right; eexists; split; [reflexivity|]; cbn; now rewrite Nat.eqb_refl); try (intros [X|[]]; discriminate); try (intros _; exists i; split; [easy|]; tauto);
      try (intros j X; injection X as <-; exists i; split; [easy|]; cbn; lia); try (apply andb_prop in BO; destruct BO as [_ ->]; cbn; intuition discriminate); intuition discriminate.
  - discriminate.
Qed.
Lemma kinv_run : forall ls s s', kinv s -> k_run s ls = Some s' -> kinv s'.
Proof.
  induction ls as [|l r IH]; intros s s' I E; cbn [k_run] in E; [now injection E as <-|]. destruct (k_step s l) as [s1|] eqn:E1; [|discriminate]. apply (IH s1); [|easy]. clear IH E.
  destruct l; [eapply kinv_call; eauto|eapply kinv_lctl; eauto| | | |eapply kinv_elem; eauto]; eapply kinv_main; eauto; easy.
Qed.

(** The state in which an event was logged *)
Lemma k_run_app : forall l1 s l2, k_run s (l1 ++ l2) = match k_run s l1 with Some s1 => k_run s1 l2 | None => None end.
Proof. induction l1 as [|l r IH]; intros s l2; [easy|]. cbn [app k_run]. destruct (k_step s l); auto. Qed.
Lemma k_step_log s l s' : k_step s l = Some s' -> exists lg, k_log s' = lg ++ k_log s /\ (lg = [] \/ (exists x, lg = [x]) \/ exists x, l = LCall x /\ lg = [KRet x; KReq x]).
Proof.
  intros E.
  assert (Z : forall t, k_log t = k_log s -> exists lg, k_log t = lg ++ k_log s /\ (lg = [] \/ (exists x, lg = [x]) \/ exists x, l = LCall x /\ lg = [KRet x; KReq x])) by (intros t T; exists []; auto).
  assert (O : forall t x, k_log t = x :: k_log s -> exists lg, k_log t = lg ++ k_log s /\ (lg = [] \/ (exists x, lg = [x]) \/ exists x, l = LCall x /\ lg = [KRet x; KReq x])) by (intros t x T; exists [x]; split; [easy|]; right; left; now exists x).
  destruct l; cbn [k_step] in E.
  - destruct (k_ctl s); try discriminate. destruct (estate_eqb _ _); injection E as <-; [exists [KRet x; KReq x]; split; [easy|]; right; right; now exists x|eapply O; reflexivity].
  - destruct (k_ctl s) as [|x [|e r]|x [|e r]]; try discriminate; injection E as <-; [eapply O; reflexivity|now apply Z|now apply Z].
  - destruct (k_main s); try discriminate; injection E as <-; now apply Z.
  - destruct (k_main s); try discriminate; injection E as <-; now apply Z.
  - destruct (k_main s) as [|k ok|o|o]; try discriminate.
    + destruct k; [injection E as <-; eapply O; reflexivity|]. destruct (ok && _)%bool; injection E as <-; [now apply Z|eapply O; reflexivity].
    + destruct (k_ctl s); try discriminate. injection E as <-. eapply O; reflexivity.
    + destruct (engine_done s); try discriminate. injection E as <-. eapply O; reflexivity.
  - destruct (_ && _)%bool; [|discriminate]. destruct (k_pc s e); repeat match goal with H : context [if ?c then _ else _] |- _ => destruct c end; try discriminate; injection E as <-; first [now apply Z|eapply O; reflexivity].
Qed.
Lemma event_step : forall ls s s' a x b, k_run s ls = Some s' -> k_log s' = a ++ x :: b -> length (k_log s) <= length b -> (forall y, x <> KRet y /\ x <> KReq y) ->
  exists l1 l l2 s1 s2, ls = l1 ++ l :: l2 /\ k_run s l1 = Some s1 /\ k_step s1 l = Some s2 /\ k_log s1 = b /\ k_log s2 = x :: b /\ k_run s2 l2 = Some s'.
Proof.
  induction ls as [|l r IH] using rev_ind; intros s s' a x b E L N X.
  - cbn in E. injection E as <-. rewrite L, app_length in N. cbn in N. lia.
  - rewrite k_run_app in E. destruct (k_run s r) as [s1|] eqn:E1; [|discriminate]. cbn [k_run] in E. destruct (k_step s1 l) as [s2|] eqn:E2; [|discriminate]. injection E as <-.
    assert (IHs : forall a', k_log s1 = a' ++ x :: b -> exists l1 l0 l2 s3 s4, r ++ [l] = l1 ++ l0 :: l2 /\ k_run s l1 = Some s3 /\ k_step s3 l0 = Some s4 /\ k_log s3 = b /\ k_log s4 = x :: b /\ k_run s4 l2 = Some s2).
    { intros a' A'. destruct (IH s s1 a' x b E1 A' N X) as (l1 & l0 & l2 & s3 & s4 & Q1 & Q2 & Q3 & Q4 & Q5 & Q6). exists l1, l0, (l2 ++ [l]), s3, s4. split; [rewrite Q1; now rewrite <- app_assoc|]. do 4 (split; [easy|]). rewrite k_run_app, Q6. cbn. now rewrite E2. }
    destruct (k_step_log s1 l s2 E2) as (lg & G1 & G2). rewrite L in G1. destruct G2 as [->|[(y & ->)|(y & -> & ->)]].
    + eapply IHs. symmetry. exact G1.
    + destruct a as [|z a]; cbn in G1; injection G1 as G0 G1.
      * subst y. exists r, l, [], s1, s2. split; [easy|]. do 2 (split; [easy|]). split; [easy|]. split; [now rewrite L|easy].
      * eapply IHs. symmetry. exact G1.
    + destruct (X y) as [X1 X2]. destruct a as [|z a]; cbn in G1; injection G1 as G0 G1; [congruence|]. destruct a as [|z' a]; cbn in G1; injection G1 as G3 G1; [congruence|]. eapply IHs. symmetry. exact G1.
Qed.
(** While no suspend was called in the run, nothing is suspended *)
Definition awake (p : epc) : Prop := match p with EFall _ _ | ESleep _ _ _ => False | _ => True end.
Definition ctl_not (x : estate) (c : cpc) : Prop := match c with CIdle => True | CStore y _ | CNote y _ => y <> x end.
Definition kinv2 (s : kst) : Prop := in_run (k_main s) = true -> existsb is_susp (this_run (k_log s)) = false ->
  k_repo s <> Suspended /\ ctl_not Suspended (k_ctl s) /\ (forall e, e < k_n s -> k_st s e <> Suspended /\ awake (k_pc s e)).
Lemma kinv2_step s l s' : kinv s -> kinv2 s -> k_step s l = Some s' -> kinv2 s'.
Proof.
  intros I J E. unfold kinv2 in *. destruct l; cbn [k_step] in E.
  - destruct (k_ctl s) eqn:C; try discriminate. destruct (estate_eqb _ _) eqn:Q; injection E as <-; cbn; intros R H; apply orb_false_elim in H; destruct H as [H1 H2]; destruct (J R H2) as (J1 & J2 & J3).
    + split; [easy|]. split; [easy|]. easy.
    + split; [easy|]. split; [destruct x; easy|]. easy.
  - destruct (k_ctl s) as [|x [|e r]|x [|e r]] eqn:C; try discriminate; injection E as <-; cbn [k_main k_log k_repo k_ctl k_st k_pc k_n]; intros R H; cbn [this_run existsb is_susp orb] in H; destruct (J R H) as (J1 & J2 & J3); cbn in J2.
    + easy.
    + split; [easy|]. split; [destruct (estate_eqb x Suspended); easy|]. intros e' He'. unfold upd. destruct (Nat.eqb e' e); split; try easy; now apply J3.
    + split; [easy|]. split; [easy|]. intros e' He'. split; [now apply J3|]. destruct (k_pc s e) eqn:P; try (now apply J3). unfold upd. destruct (Nat.eqb_spec e' e) as [->|N]; [destruct (J3 e He') as [_ X]; now rewrite P in X|now apply J3].
  - destruct (k_main s); try discriminate. injection E as <-. cbn. easy.
  - destruct (k_main s); try discriminate. injection E as <-. cbn. easy.
  - destruct (k_main s) as [|k ok|o|o] eqn:M; try discriminate.
    + destruct k; [injection E as <-; cbn; easy|]. destruct (ok && _)%bool; injection E as <-; cbn; easy.
    + pose proof (ki_push _ I) as P. destruct (k_ctl s) eqn:C; try discriminate. injection E as <-. cbn. intros _ _. split; [easy|]. split; [easy|]. intros e He. split; [|easy]. destruct (estate_eqb (k_repo s) Normal) eqn:Q; [|easy]. apply estate_eqb_eq in Q. cbn in P. rewrite (P e He), Q. easy.
    + destruct (engine_done s); [|discriminate]. injection E as <-. cbn. destruct o; easy.
  - destruct (Nat.ltb_spec e (k_n s)) as [He|]; [|discriminate]. destruct (in_run (k_main s)) eqn:R; [|discriminate]. cbn [andb] in E.
    assert (G : forall p lg, existsb is_susp (this_run (lg ++ k_log s)) = existsb is_susp (this_run (k_log s)) -> (k_st s e <> Suspended -> awake (k_pc s e) -> awake p) -> s' = set_pc s e p lg ->
      in_run (k_main s') = true -> existsb is_susp (this_run (k_log s')) = false -> k_repo s' <> Suspended /\ ctl_not Suspended (k_ctl s') /\ (forall e, e < k_n s' -> k_st s' e <> Suspended /\ awake (k_pc s' e))).
    { intros p lg L A -> _ H. cbn [set_pc k_log] in H. rewrite L in H. destruct (J eq_refl H) as (J1 & J2 & J3). cbn. split; [easy|]. split; [easy|]. intros e' He'. unfold upd. destruct (Nat.eqb_spec e' e) as [->|N]; [|now apply J3]. split; [now apply J3|]. apply A; now apply J3. }
    destruct (k_pc s e) as [|i|i|i ok|i ok|i ok|i ok w|i ok|ok] eqn:P; repeat match goal with H : context [if ?c then _ else _] |- _ => destruct c eqn:? end; try discriminate; injection E as E; (eapply G; [..|symmetry; exact E]); try easy.
    intros X. exfalso. apply X. now apply estate_eqb_eq.
Qed.
Lemma kinv2_run : forall ls s s', kinv s -> kinv2 s -> k_run s ls = Some s' -> kinv2 s'.
Proof.
  induction ls as [|l r IH]; intros s s' I J E; cbn [k_run] in E; [now injection E as <-|]. destruct (k_step s l) as [s1|] eqn:E1; [|discriminate].
  apply (IH s1); [|eapply kinv2_step; eauto|easy]. apply (kinv_run [l] s); [easy|]. cbn. now rewrite E1.
Qed.
Lemma reach_inv n lp ls s : k_run (k_new n lp) ls = Some s -> kinv s /\ kinv2 s /\ k_n s = n /\ k_loop s = lp.
Proof.
  intros E. split; [eapply kinv_run; [apply kinv_new|eassumption]|]. split; [eapply kinv2_run; [apply kinv_new| |eassumption]; intros H; discriminate|].
  assert (G : forall l2 s2 s3, k_run s2 l2 = Some s3 -> k_n s3 = k_n s2 /\ k_loop s3 = k_loop s2).
  { clear. induction l2 as [|l r IH]; intros s2 s3 E; cbn [k_run] in E; [now injection E as <-|]. destruct (k_step s2 l) as [s4|] eqn:E1; [|discriminate]. apply IH in E. destruct E as [-> ->]. clear IH.
    destruct l; cbn [k_step] in E1; repeat match goal with H : context [match ?c with _ => _ end] |- _ => destruct c eqn:? end; try discriminate; injection E1 as <-; easy. }
  apply G in E. easy.
Qed.
(** How long an element still takes once it was cancelled *)
Definition left_of (p : epc) : nat := match p with EFin _ => 0 | ETest _ => 1 | ENot | EHold _ _ => 2 | ELock _ _ => 3 | ECheck _ _ => 4 | EBody _ => 5 | EFall _ _ | ESleep _ _ _ => 0 end.
Fixpoint sum_left (f : nat -> epc) (n : nat) : nat := match n with O => 0 | S k => left_of (f k) + sum_left f k end.
Lemma sum_left_upd f n e p : e < n -> left_of p < left_of (f e) -> sum_left (upd f e p) n < sum_left f n.
Proof.
  assert (G : forall m, m <= e -> sum_left (upd f e p) m = sum_left f m) by (induction m as [|m IH]; intros H; [easy|]; cbn; rewrite IH by lia; unfold upd; destruct (Nat.eqb_spec m e); [lia|easy]).
  induction n as [|n IH]; intros H L; [lia|]. cbn [sum_left]. destruct (Nat.eq_dec n e) as [->|N].
  - rewrite G by lia. unfold upd. rewrite Nat.eqb_refl. lia.
  - unfold upd at 1. destruct (Nat.eqb_spec n e); [easy|]. assert (sum_left (upd f e p) n < sum_left f n) by (apply IH; lia). lia.
Qed.
Lemma sum_left_le f n : sum_left f n <= 5 * n.
Proof. induction n as [|n IH]; cbn [sum_left]; [lia|]. destruct (f n); cbn [left_of]; lia. Qed.
Lemma elem_step_left s e b thr s' : (forall e, e < k_n s -> k_st s e = Cancelled) -> (forall e, e < k_n s -> awake (k_pc s e)) -> hold_free s (LElem e b thr) -> k_step s (LElem e b thr) = Some s' ->
  (k_n s' = k_n s /\ k_st s' = k_st s /\ k_main s' = k_main s) /\ (forall e, e < k_n s -> awake (k_pc s' e)) /\ sum_left (k_pc s') (k_n s) < sum_left (k_pc s) (k_n s).
Proof.
  intros C A HF E. cbn [k_step] in E. destruct (Nat.ltb_spec e (k_n s)) as [He|]; [|discriminate]. destruct (in_run (k_main s)); [|discriminate]. cbn [andb] in E.
  assert (G : forall p lg, s' = set_pc s e p lg -> awake p -> left_of p < left_of (k_pc s e) -> (k_n s' = k_n s /\ k_st s' = k_st s /\ k_main s' = k_main s) /\ (forall e, e < k_n s -> awake (k_pc s' e)) /\ sum_left (k_pc s') (k_n s) < sum_left (k_pc s) (k_n s)).
  { intros p lg -> AW L. split; [easy|]. cbn [set_pc k_pc]. split; [|now apply sum_left_upd]. intros e' He'. unfold upd. destruct (Nat.eqb e' e); auto. }
  cbn in HF. rewrite (C e He) in E. cbn [estate_eqb] in E. specialize (A e He).
  destruct (k_pc s e) as [|i|i|i ok|i ok|i ok|i ok w|i ok|ok] eqn:P; try easy; try (rewrite (HF i ok eq_refl) in E; cbn [andb] in E); repeat match goal with H : context [if ?c then _ else _] |- _ => destruct c eqn:? end; try discriminate; injection E as E; (eapply G; [symmetry; exact E|..]); cbn; try easy; lia.
Qed.
Lemma enabled s : in_run (k_main s) = true -> (forall e, e < k_n s -> awake (k_pc s e)) -> engine_done s = true \/ exists l s', hold_free s l /\ k_step s l = Some s'.
Proof.
  intros R A. destruct (engine_done s) eqn:D; [now left|right]. unfold engine_done in D. apply orb_false_elim in D. destruct D as [D _].
  assert (G : exists e, e < k_n s /\ fin (k_pc s e) = false).
  { assert (W : forall l, forallb (fun e => fin (k_pc s e)) l = false -> exists e, In e l /\ fin (k_pc s e) = false).
    { induction l as [|x l IH]; [easy|]. cbn. destruct (fin (k_pc s x)) eqn:F; [|exists x; auto]. intros H. destruct (IH H) as (e & H1 & H2). exists e. auto. }
    destruct (W _ D) as (e & H1 & H2). exists e. split; [apply in_seq in H1; lia|easy]. }
  destruct G as (e & He & F). specialize (A e He).
  assert (L : Nat.ltb e (k_n s) = true) by now apply Nat.ltb_lt.
  destruct (k_pc s e) as [|i|i|i ok|i ok|i ok|i ok w|i ok|ok] eqn:P; try easy;
   (match type of P with _ = ENot => exists (LElem e true false) | _ => exists (LElem e false false) end); cbn [k_step hold_free]; rewrite L, R, P; cbn [andb];
   repeat match goal with |- context [if ?c then _ else _] => destruct c end; eexists; (split; [easy|reflexivity]).
Qed.
Lemma hf_facts : forall s m s', hf_run s m s' -> (forall e, e < k_n s -> k_st s e = Cancelled) -> in_run (k_main s) = true -> (forall e, e < k_n s -> awake (k_pc s e)) ->
  m <= sum_left (k_pc s) (k_n s) /\ (engine_done s' = true \/ exists s'', hf_run s' 1 s'').
Proof.
  induction 1 as [s|s l s1 m s' HF E H IH]; intros C R A.
  - split; [lia|]. destruct (enabled s R A) as [D|(l & s' & D & E)]; [now left|right]. exists s'. econstructor; [exact D|exact E|constructor].
  - destruct l; try easy. destruct (elem_step_left s e b thr s1 C A HF E) as ((Q1 & Q2 & Q3) & Q4 & Q5). rewrite Q1, Q2, Q3 in IH. destruct (IH C R Q4) as [I1 I2]. split; [lia|easy].
Qed.
