(** Consequences of the grammar of ElemSpec. *)
From Verif Require Import ElemModel ElemSpec ElemProofs.
From Coq Require Import Lia.
Local Open Scope nat_scope.
Local Open Scope list_scope.

(** * Classification of calls *)
(** Calls whose status is looked at. *)
Definition counted (c : cb) : bool :=
  match c with CPrepare | CBody | CInit | CDestroy | CCheck => true | CAspect k _ _ => is_begin k | _ => false end.
(** The call neither threw nor reported an error (reading the state is not a call). *)
Definition ok_call (e : cb * resp) : Prop :=
  match fst e with CState | CMark _ => True | c => call_fate (counted c) (snd e) = Fine end.
(** What counts as a crash: a CGraph exception; the crash code from prepareRun or a begin aspect; an error from
    checkRunResult. *)
Definition crash_cause (e : cb * resp) : Prop :=
  match fst e with
  | CState | CMark _ | CAspect AEnterCrashed _ _ => False
  | c => (exists m, r_exc (snd e) = Some (CExc m)) \/
         r_exc (snd e) = None /\
           match c with
           | CPrepare => code (r_st (snd e)) = (-996)%Z
           | CAspect k _ _ => is_begin k = true /\ code (r_st (snd e)) = (-996)%Z
           | CCheck => (code (r_st (snd e)) < 0)%Z
           | _ => False
           end
  end.
(** A call that throws something else than a CGraph exception. *)
Definition alien (e : cb * resp) : Prop :=
  match fst e with CState | CMark _ => False | _ => r_exc (snd e) = Some Foreign end.
Definition calm (e : cb * resp) : Prop := ~ crash_cause e /\ ~ alien e.
Definition crashed_aspects (l : log) : list nat :=
  flat_map (fun e => match fst e with CAspect AEnterCrashed i _ => [i] | _ => [] end) l.

Lemma crashed_aspects_app a b : crashed_aspects (a ++ b) = crashed_aspects a ++ crashed_aspects b.
Proof. unfold crashed_aspects. now rewrite flat_map_app. Qed.

(** * The verdict of a piece of log *)
Definition verdict (o : fate) (l : log) : Prop :=
  match o with
  | Fine | Error _ => Forall calm l
  | Exn _ => Exists crash_cause l
  | Alien => Exists alien l
  end.
Lemma verdict_app o a b : Forall calm a -> verdict o b -> verdict o (a ++ b).
Proof.
  intros Ha Hb. destruct o; cbn in *; try (apply Forall_app; auto); apply Exists_app; auto.
Qed.

Lemma fate_cases b r : 
  match call_fate b r with
  | Fine => r_exc r = None /\ (b = true -> (0 <= code (r_st r))%Z)
  | Error s => r_exc r = None /\ b = true /\ s = r_st r /\ (code s < 0)%Z /\ code s <> (-996)%Z
  | Exn m => r_exc r = Some (CExc m) \/ r_exc r = None /\ b = true /\ code (r_st r) = (-996)%Z
  | Alien => r_exc r = Some Foreign
  end.
Proof.
  unfold call_fate. destruct (r_exc r) as [[m|]|]; auto. destruct b; cbn [andb].
  - destruct (code (r_st r) <? 0)%Z eqn:E1.
    + destruct (code (r_st r) =? -996)%Z eqn:E2.
      * right. split; [easy|]. split; [easy|]. now apply Z.eqb_eq.
      * split; [easy|]. split; [easy|]. split; [easy|]. split; [now apply Z.ltb_lt|now apply Z.eqb_neq].
    + split; [easy|]. intros _. now apply Z.ltb_ge.
  - split; easy.
Qed.

Definition plain (c : cb) : Prop := match c with CState | CMark _ | CCheck | CPrepare | CAspect _ _ _ => False | _ => True end.
Lemma plain_verdict c r : plain c -> verdict (call_fate false r) [(c, r)].
Proof.
  intro Hc. pose proof (fate_cases false r) as F. destruct (call_fate false r) as [|s|m|]; cbn.
  - destruct F as [F _]. constructor; [|constructor]. split; cbn.
    + destruct c; cbn in *; try easy; intros [(m & H)|[_ H]]; congruence || easy.
    + unfold alien. cbn. destruct c; easy || congruence.
  - easy.
  - destruct F as [F|(_ & F & _)]; [|easy]. constructor. destruct c; cbn in *; try easy; left; now exists m.
  - constructor. destruct c; cbn in *; easy.
Qed.
Lemma prepare_verdict r : verdict (call_fate true r) [(CPrepare, r)].
Proof.
  pose proof (fate_cases true r) as F. destruct (call_fate true r) as [|s|m|]; cbn.
  - destruct F as [F F2]. specialize (F2 eq_refl). constructor; [|constructor]. split; cbn.
    + intros [(m & H)|[_ H]]; [congruence|lia].
    + unfold alien. cbn. congruence.
  - destruct F as (F1 & _ & -> & _ & F). constructor; [|constructor]. split; cbn.
    + intros [(m & H)|[_ H]]; [congruence|easy].
    + unfold alien. cbn. congruence.
  - constructor. cbn. destruct F as [F|(F1 & _ & F)]; [left; now exists m|now right].
  - constructor. exact F.
Qed.
Lemma aspect_verdict1 k i arg r : k <> AEnterCrashed -> verdict (call_fate (is_begin k) r) [(CAspect k i arg, r)].
Proof.
  intro Hk. pose proof (fate_cases (is_begin k) r) as F. destruct (call_fate (is_begin k) r) as [|s|m|]; cbn.
  - destruct F as [F F2]. constructor; [|constructor]. split; cbn.
    + assert (X : ~ ((exists m, r_exc r = Some (CExc m)) \/ r_exc r = None /\ is_begin k = true /\ code (r_st r) = (-996)%Z)).
      { intros [(m & H)|(_ & H & H2)]; [congruence|]. apply F2 in H. lia. }
      destruct k; easy.
    + unfold alien. cbn. congruence.
  - destruct F as (F1 & Fb & -> & _ & F). constructor; [|constructor]. split; cbn.
    + assert (X : ~ ((exists m, r_exc r = Some (CExc m)) \/ r_exc r = None /\ is_begin k = true /\ code (r_st r) = (-996)%Z)).
      { intros [(m & H)|(_ & H & H2)]; [congruence|easy]. }
      destruct k; easy.
    + unfold alien. cbn. congruence.
  - constructor. cbn. 
    assert (X : (exists m, r_exc r = Some (CExc m)) \/ r_exc r = None /\ is_begin k = true /\ code (r_st r) = (-996)%Z).
    { destruct F as [F|(F1 & Fb & F)]; [left; now exists m|now right]. }
    destruct k; easy.
  - constructor. exact F.
Qed.

Lemma aspect_shape k arg (l : log) j : map fst l = map (fun i => CAspect k i arg) (seq 0 j) -> Forall (fun e => exists i, fst e = CAspect k i arg) l.
Proof.
  intro H. apply Forall_forall. intros e He. apply (in_map fst) in He. rewrite H in He.
  apply in_map_iff in He. destruct He as (i & E & _). exists i. auto.
Qed.
Lemma fine_calm k arg (l : log) : k <> AEnterCrashed -> Forall (fun e => exists i, fst e = CAspect k i arg) l ->
  Forall (fun e => call_fate (is_begin k) (snd e) = Fine) l -> Forall calm l.
Proof.
  intros Hk Hs Hf. rewrite Forall_forall in *. intros e He. specialize (Hs e He). specialize (Hf e He).
  destruct Hs as (i & Hi). destruct e as [c r]. cbn in *. subst c.
  pose proof (aspect_verdict1 k i arg r Hk) as V. rewrite Hf in V. cbn in V. now inversion V.
Qed.
Lemma aspect_verdict k arg n l o : k <> AEnterCrashed -> aspect_calls k arg n l o -> verdict o l /\ crashed_aspects l = [].
Proof.
  intros Hk (j & _ & Hm & H). pose proof (aspect_shape _ _ _ _ Hm) as Hs. split.
  - destruct H as [(_ & -> & HF)|(l0 & e & -> & HF & He & _)].
    + cbn. now apply (fine_calm k arg).
    + apply Forall_app in Hs. destruct Hs as [Hs1 Hs2]. apply verdict_app; [now apply (fine_calm k arg)|].
      apply Forall_inv in Hs2. destruct Hs2 as (i & Hi). destruct e as [c r]. cbn in *. subst c. rewrite <- He. now apply aspect_verdict1.
  - clear -Hs Hk. induction Hs as [|e l (i & Hi) _ IH]; [reflexivity|]. unfold crashed_aspects in *. cbn. rewrite Hi, IH.
    now destruct k.
Qed.

Lemma body_verdict l st o : body_calls l st o -> verdict o l /\ crashed_aspects l = [].
Proof.
  induction 1 as [r H|r h H Hn|r h H Hn Hh|r h l st o H Hn Hh Hf B [IH1 IH2]].
  - split; [now apply plain_verdict|reflexivity].
  - split; [|reflexivity]. apply (verdict_app _ [(CBody, r)]).
    + pose proof (plain_verdict CBody r Logic.I) as V. now rewrite H in V.
    + now apply plain_verdict.
  - split; [|reflexivity]. apply (verdict_app _ [(CBody, r)]).
    + pose proof (plain_verdict CBody r Logic.I) as V. now rewrite H in V.
    + now apply plain_verdict.
  - split; [|exact IH2]. apply (verdict_app _ [(CBody, r); (CHold, h)]); [|exact IH1].
    pose proof (plain_verdict CBody r Logic.I) as V. rewrite H in V. cbn in V.
    pose proof (plain_verdict CHold h Logic.I) as V2. rewrite Hh in V2. cbn in V2.
    constructor; [now inversion V|exact V2].
Qed.
Lemma iteration_verdict n l st o : iteration n l st o -> verdict o l /\ crashed_aspects l = [].
Proof.
  intros [l0 o0 A _|lb lo s o0 A B _|lb lo s lf o0 A B F].
  - now apply aspect_verdict in A.
  - apply aspect_verdict in A; [|easy]. apply body_verdict in B. destruct A as [A1 A2], B as [B1 B2].
    split; [now apply verdict_app|]. now rewrite crashed_aspects_app, A2, B2.
  - apply aspect_verdict in A; [|easy]. apply body_verdict in B. apply aspect_verdict in F; [|easy].
    destruct A as [A1 A2], B as [B1 B2], F as [F1 F2].
    split; [apply verdict_app; [exact A1|now apply verdict_app]|]. now rewrite !crashed_aspects_app, A2, B2, F2.
Qed.
Lemma state_calm r : calm (CState, r).
Proof. split; cbn; easy. Qed.
Lemma iterations_verdict n k l st o : iterations n k l st o -> verdict o l /\ crashed_aspects l = [].
Proof.
  induction 1 as [|k r H|k r l1 l2 st o H I It [IH1 IH2]|k r l st o H I S].
  - split; [constructor|reflexivity].
  - split; [|reflexivity]. constructor; [apply state_calm|constructor].
  - apply iteration_verdict in I. destruct I as [I1 I2]. split.
    + apply (verdict_app o ((CState, r) :: l1)); [|exact IH1]. constructor; [apply state_calm|exact I1].
    + change (crashed_aspects ((CState, r) :: l1 ++ l2)) with (crashed_aspects (l1 ++ l2)). now rewrite crashed_aspects_app, I2, IH2.
  - apply iteration_verdict in I. destruct I as [I1 I2]. split; [|exact I2].
    apply (verdict_app o [(CState, r)]); [|exact I1]. constructor; [apply state_calm|constructor].
Qed.

Definition fverdict (d : fin) (l : log) : Prop :=
  match d with Done _ => Forall calm l | Crash _ _ => Exists crash_cause l | Out => Exists alien l end.
Lemma leave_verdict st o l : verdict o l -> fverdict (leave st o) l.
Proof. destruct o; auto. Qed.
Lemma fverdict_app d a b : Forall calm a -> fverdict d b -> fverdict d (a ++ b).
Proof. intros Ha Hb. destruct d; cbn in *; [apply Forall_app|apply Exists_app|apply Exists_app]; auto. Qed.
Lemma check_verdict st l d : check_calls st l d -> fverdict d l /\ crashed_aspects l = [].
Proof.
  intros [r H|r H Hn|r r2 H Hn]; (split; [|reflexivity]).
  - pose proof (fate_cases false r) as F. destruct (call_fate false r) as [|s|m|]; cbn; try easy.
    + constructor. cbn. destruct F as [F|(_ & F & _)]; [|easy]. left. now exists m.
    + now constructor.
  - pose proof (fate_cases false r) as F. rewrite H in F. destruct F as [F _]. constructor; [|constructor]. split; cbn.
    + intros [(m & H2)|[_ H2]]; [congruence|lia].
    + unfold alien. cbn. congruence.
  - pose proof (fate_cases false r) as F. rewrite H in F. destruct F as [F _].
    pose proof (fate_cases false r2) as F2. destruct (call_fate false r2) as [|s|m|] eqn:E2; cbn.
    + constructor. cbn. now right.
    + easy.
    + constructor. cbn. now right.
    + constructor 2. constructor. exact F2.
Qed.
Lemma prep_calm (prepared : bool) lp :
  (prepared = true /\ lp = [] \/ prepared = false /\ exists r, lp = [(CPrepare, r)] /\ call_fate true r = Fine /\ code (r_st r) = 0%Z) ->
  Forall calm lp /\ crashed_aspects lp = [].
Proof.
  intros [[_ ->]|[_ (r & -> & H & _)]]; [now split|]. split; [|reflexivity].
  pose proof (prepare_verdict r) as V. now rewrite H in V.
Qed.
Lemma run_verdict p n loop l p' d : run_calls p n loop l p' d -> fverdict d l /\ crashed_aspects l = [].
Proof.
  intros [r Hp H|r lc d' Hp H Hn C|lp l0 st o Hp I Ho|lp l0 st lc d' Hp I C].
  - split; [|reflexivity]. apply leave_verdict. apply prepare_verdict.
  - apply check_verdict in C. destruct C as [C1 C2]. split; [|exact C2]. apply (fverdict_app d' [(CPrepare, r)]); [|exact C1].
    pose proof (prepare_verdict r) as V. now rewrite H in V.
  - apply prep_calm in Hp. destruct Hp as [P1 P2]. apply iterations_verdict in I. destruct I as [I1 I2].
    split; [apply leave_verdict; now apply verdict_app|]. now rewrite crashed_aspects_app, P2, I2.
  - apply prep_calm in Hp. destruct Hp as [P1 P2]. apply iterations_verdict in I. destruct I as [I1 I2].
    apply check_verdict in C. destruct C as [C1 C2].
    split; [apply fverdict_app; [exact P1|now apply fverdict_app]|]. now rewrite !crashed_aspects_app, P2, I2, C2.
Qed.
Lemma simple_verdict kb kf c n l d : kb <> AEnterCrashed -> kf <> AEnterCrashed -> plain c ->
  simple_calls kb kf c n l d -> fverdict d l /\ crashed_aspects l = [].
Proof.
  intros Hb Hf Hc [l0 o A Ho|l0 r st A H Hst|l0 r s lf o A H H1 H2 F].
  - apply aspect_verdict in A; [|exact Hb]. destruct A as [A1 A2]. split; [now apply leave_verdict|exact A2].
  - apply aspect_verdict in A; [|exact Hb]. destruct A as [A1 A2].
    split; [apply leave_verdict; apply verdict_app; [exact A1|now apply plain_verdict]|].
    rewrite crashed_aspects_app, A2. now destruct c.
  - apply aspect_verdict in A; [|exact Hb]. destruct A as [A1 A2]. apply aspect_verdict in F; [|exact Hf]. destruct F as [F1 F2].
    pose proof (plain_verdict c r Hc) as V. rewrite H in V. cbn in V. split.
    + apply leave_verdict. apply verdict_app; [exact A1|]. now apply (verdict_app o [(c, r)]).
    + rewrite crashed_aspects_app, A2. cbn [app]. unfold crashed_aspects in *. cbn [flat_map fst]. rewrite F2. now destruct c.
Qed.
Lemma try_verdict f p n loop l p' d : try_calls f p n loop l p' d -> fverdict d l /\ crashed_aspects l = [].
Proof.
  destruct f; cbn.
  - intros [H _]. now apply (simple_verdict ABeginInit AFinishInit CInit n).
  - apply run_verdict.
  - intros [H _]. now apply (simple_verdict ABeginDestroy AFinishDestroy CDestroy n).
Qed.

(** * Success *)
Definition good (ask : oracle) : Prop :=
  forall l c, r_exc (ask l c) = None /\ (counted c = true -> (0 <= code (r_st (ask l c)))%Z) /\
    (c = CPrepare -> code (r_st (ask l c)) = 0%Z) /\ (c = CState -> r_flag (ask l c) = true).
Definition one_round (n h : nat) : list cb :=
  CState :: map (fun i => CAspect ABeginRun i st_default) (seq 0 n) ++
  concat (repeat [CBody; CHold] (S h)) ++ map (fun i => CAspect AFinishRun i st_default) (seq 0 n).
(** All responses are those of a good user. *)
Definition good_resp (e : cb * resp) : Prop :=
  (exists f, fst e = CMark f) \/
  r_exc (snd e) = None /\ (counted (fst e) = true -> (0 <= code (r_st (snd e)))%Z) /\
    (fst e = CPrepare -> code (r_st (snd e)) = 0%Z) /\ (fst e = CState -> r_flag (snd e) = true).
Lemma good_log ask l0 l : good ask -> faithful ask l0 l -> Forall good_resp l.
Proof.
  intros G F. apply Forall_forall. intros [c r] He. apply in_split in He. destruct He as (a & b & ->).
  destruct (F a c r b eq_refl) as [H|H]; [now left|]. right. subst r. cbn. apply G.
Qed.
Lemma good_fate_false c r : good_resp (c, r) -> (forall f, c <> CMark f) -> call_fate false r = Fine.
Proof. intros [(f & H)|(H & _)] Hc; [now destruct (Hc f)|]. unfold call_fate. cbn in H. now rewrite H. Qed.
Lemma good_fate_true c r : good_resp (c, r) -> (forall f, c <> CMark f) -> counted c = true -> call_fate true r = Fine.
Proof.
  intros G Hc Hk. apply call_fate_true_fine; [now apply (good_fate_false c)|].
  destruct G as [(f & H)|(_ & H & _)]; [now destruct (Hc f)|]. now apply H.
Qed.
Lemma good_aspects k arg n l o : aspect_calls k arg n l o -> Forall good_resp l ->
  o = Fine /\ map fst l = map (fun i => CAspect k i arg) (seq 0 n).
Proof.
  intros (j & _ & Hm & [(-> & -> & _)|(l0 & e & -> & _ & He & Ho)]) G; [now split|]. exfalso.
  pose proof (aspect_shape _ _ _ _ Hm) as Hs. apply Forall_app in Hs. destruct Hs as [_ Hs]. apply Forall_inv in Hs.
  apply Forall_app in G. destruct G as [_ G]. apply Forall_inv in G. destruct Hs as (i & Hi). destruct e as [c r]. cbn in *. subst c.
  apply Ho. rewrite <- He. destruct (is_begin k) eqn:Ek.
  - apply (good_fate_true (CAspect k i arg)); easy.
  - apply (good_fate_false (CAspect k i arg)); easy.
Qed.
Lemma good_body l st o : body_calls l st o -> Forall good_resp l ->
  o = Fine /\ st = st_default /\ exists h, map fst l = concat (repeat [CBody; CHold] (S h)).
Proof.
  induction 1 as [r H|r h H Hn|r h H Hn Hh|r h l st o H Hn Hh Hf B IH]; intro G.
  - exfalso. apply H. apply Forall_inv in G. now apply (good_fate_false CBody).
  - exfalso. apply Forall_inv in G. destruct G as [(f & E)|(_ & G & _)]; [easy|]. specialize (G eq_refl). cbn in G. lia.
  - assert (G2 : good_resp (CHold, h)) by (inversion G as [|x y _ G2]; now apply Forall_inv in G2).
    split; [now apply (good_fate_false CHold)|]. split; [easy|]. now exists 0.
  - assert (G2 : Forall good_resp l) by (inversion G as [|x y _ G2]; now inversion G2).
    destruct (IH G2) as (I1 & I2 & k & Ik). split; [easy|]. split; [easy|]. exists (S k). cbn [map fst]. rewrite Ik. reflexivity.
Qed.
Lemma good_iteration n l st o : iteration n l st o -> Forall good_resp l ->
  o = Fine /\ st = st_default /\ exists h, CState :: map fst l = one_round n h.
Proof.
  intros [l0 o0 A Ho|lb lo s o0 A B Ho|lb lo s lf o0 A B F] G.
  - destruct (good_aspects _ _ _ _ _ A G) as [E _]. easy.
  - apply Forall_app in G. destruct G as [G1 G2]. destruct (good_body _ _ _ B G2) as [E _]. easy.
  - apply Forall_app in G. destruct G as [G1 G2]. apply Forall_app in G2. destruct G2 as [G2 G3].
    destruct (good_body _ _ _ B G2) as (_ & -> & h & Eh). destruct (good_aspects _ _ _ _ _ F G3) as [-> E3].
    destruct (good_aspects _ _ _ _ _ A G1) as [_ E1]. split; [easy|]. split; [easy|]. exists h.
    unfold one_round. now rewrite !map_app, E1, Eh, E3.
Qed.
Lemma good_iterations n k l st o : iterations n k l st o -> Forall good_resp l ->
  o = Fine /\ st = st_default /\ exists hs, List.length hs = k /\ map fst l = flat_map (one_round n) hs.
Proof.
  induction 1 as [|k r H|k r l1 l2 st o H I It IH|k r l st o H I S]; intro G.
  - split; [easy|]. split; [easy|]. now exists [].
  - exfalso. apply Forall_inv in G. destruct G as [(f & E)|(_ & _ & _ & G)]; [easy|]. specialize (G eq_refl). cbn in G. congruence.
  - inversion G as [|x y G0 G1]; subst. apply Forall_app in G1. destruct G1 as [G1 G2].
    destruct (good_iteration _ _ _ _ I G1) as (_ & _ & h & Eh). destruct (IH G2) as (-> & -> & hs & Hl & Es).
    split; [easy|]. split; [easy|]. exists (h :: hs). split; [now cbn; rewrite Hl|].
    cbn [map fst flat_map]. rewrite map_app, Es, <- Eh. reflexivity.
  - inversion G as [|x y G0 G1]; subst. destruct (good_iteration _ _ _ _ I G1) as (-> & -> & _).
    destruct S as [S|S]; [cbn in S; unfold STATUS_OK in S; lia|easy].
Qed.
Lemma good_check st l d : check_calls st l d -> Forall good_resp l -> d = Done st /\ map fst l = [CCheck].
Proof.
  intros [r H|r H Hn|r r2 H Hn] G; apply Forall_inv in G.
  - exfalso. apply H. now apply (good_fate_false CCheck).
  - now split.
  - exfalso. destruct G as [(f & E)|(_ & G & _)]; [easy|]. specialize (G eq_refl). cbn in G. lia.
Qed.
Lemma good_run p n loop l p' d : run_calls p n loop l p' d -> Forall good_resp l ->
  d = Done st_default /\ p' = true /\
  exists hs, List.length hs = loop /\ map fst l = (if p then [] else [CPrepare]) ++ flat_map (one_round n) hs ++ [CCheck].
Proof.
  intros [r Hp H|r lc d' Hp H Hn C|lp l0 st o Hp I Ho|lp l0 st lc d' Hp I C] G.
  - exfalso. apply H. apply Forall_inv in G. now apply (good_fate_true CPrepare).
  - exfalso. apply Forall_inv in G. destruct G as [(f & E)|(_ & _ & G & _)]; [easy|]. specialize (G eq_refl). cbn in G. lia.
  - exfalso. apply Forall_app in G. destruct G as [_ G]. now destruct (good_iterations _ _ _ _ _ I G) as [E _].
  - apply Forall_app in G. destruct G as [_ G]. apply Forall_app in G. destruct G as [G1 G2].
    destruct (good_iterations _ _ _ _ _ I G1) as (_ & -> & hs & Hl & Es). destruct (good_check _ _ _ C G2) as [-> Ec].
    split; [easy|]. split; [easy|]. exists hs. split; [exact Hl|]. rewrite !map_app, Es, Ec. f_equal.
    destruct Hp as [[-> ->]|[-> (r & -> & _)]]; reflexivity.
Qed.

(** Without holding, one round is enough. *)
Lemma no_hold_fuel ask n loop fuel f s : (forall l, r_flag (ask l CHold) = false) -> 0 < fuel ->
  snd (fat ask true n loop fuel f s) <> NoFuel.
Proof.
  intros Hh Hf. destruct fuel as [|fuel]; [lia|]. clear Hf.
  assert (CALL : forall c l, snd (call ask c l) <> NoFuel).
  { intros c l. unfold call. cbn. destruct (r_exc (ask l c)) as [[?|]|]; easy. }
  assert (ASP : forall k arg n l, snd (do_aspect ask k arg n l) <> NoFuel).
  { intros k arg n0 l. destruct (do_aspect ask k arg n0 l) as [l1 r] eqn:E. apply do_aspect_spec in E.
    destruct E as (d & o & _ & _ & F). cbn. destruct o; cbn in F.
    - destruct F as (v & -> & _). easy.
    - destruct F as (-> & _). easy.
    - now subst.
    - now subst. }
  assert (HOLD : forall st l, snd (hold_loop ask (S fuel) st l) <> Fuel).
  { intros st l. cbn [hold_loop]. pose proof (CALL CBody l) as C. destruct (call ask CBody l) as [l1 o]. cbn in C.
    destruct o; try easy. unfold call. destruct (r_exc (ask l1 CHold)) as [[?|]|]; try easy.
    now rewrite Hh. }
  assert (RL : forall k st l, snd (run_loop ask n (S fuel) k st l) <> Fuel).
  { induction k as [|k IH]; intros st l; [easy|]. cbn [run_loop]. destruct (negb (isOK st)); [easy|].
    destruct (negb (r_flag (ask l CState))); [easy|].
    pose proof (ASP ABeginRun st_default n (l ++ [(CState, ask l CState)])) as A.
    destruct (do_aspect ask ABeginRun st_default n (l ++ [(CState, ask l CState)])) as [l1 b]. cbn [snd] in A.
    destruct b as [v|m| |]; cbn [lift]; try easy.
    destruct (check (st_plus st v)) as [st1|st1|st1 m| |] eqn:Ec; try easy.
    - pose proof (HOLD st1 l1) as H. destruct (hold_loop ask (S fuel) st1 l1) as [l2 ch]. cbn [snd] in H.
      destruct ch as [st2|st2|st2 m| |]; try easy.
      pose proof (ASP AFinishRun st2 n l2) as A2. destruct (do_aspect ask AFinishRun st2 n l2) as [l3 e]. cbn [snd] in A2.
      destruct e; cbn [lift]; first [apply IH|easy].
    - unfold check in Ec. destruct (check_status (st_plus st v)); discriminate. }
  assert (CR : forall st l, snd (check_run_result ask st l) <> Fuel).
  { intros st l. unfold check_run_result. pose proof (CALL CCheck l) as C. destruct (call ask CCheck l) as [l1 o]. cbn in C.
    destruct o; try easy. destruct (isErr (r_st a)); [|easy]. pose proof (CALL CCheck l1) as C2. destruct (call ask CCheck l1) as [l2 o2].
    cbn in C2. destruct o2; easy. }
  assert (CK : forall st, check st <> Fuel).
  { intro st. unfold check. now destruct (check_status st). }
  assert (SI : forall kb kf c l, snd (try_simple ask kb kf c n l) <> Fuel).
  { intros kb kf c l. unfold try_simple. pose proof (ASP kb st_default n l) as A.
    destruct (do_aspect ask kb st_default n l) as [l1 b]. cbn [snd] in A. destruct b as [v|m| |]; cbn [lift]; try easy.
    pose proof (CK (st_assign st_default v)) as K. destruct (check (st_assign st_default v)) as [st1|st1|st1 m| |]; try easy.
    pose proof (CALL c l1) as C. destruct (call ask c l1) as [l2 o]. cbn in C. destruct o; try easy.
    pose proof (ASP kf (st_assign st1 (r_st a)) n l2) as A2. destruct (do_aspect ask kf (st_assign st1 (r_st a)) n l2) as [l3 e].
    cbn [snd] in *. destruct e; easy. }
  assert (RN : forall p l, snd (try_run ask n loop (S fuel) p l) <> Fuel).
  { intros p l. unfold try_run.
    assert (REST : forall st l1, snd (match run_loop ask n (S fuel) loop st l1 with
       | (l2, Go st2) => let '(l3, c) := check_run_result ask st2 l2 in (l3, true, c)
       | (l2, c) => (l2, true, c) end) <> Fuel).
    { intros st l1. pose proof (RL loop st l1) as R. destruct (run_loop ask n (S fuel) loop st l1) as [l2 c]. cbn [snd] in R.
      destruct c as [st2|st2|st2 m| |]; try easy. pose proof (CR st2 l2) as C. now destruct (check_run_result ask st2 l2). }
    destruct p; [apply REST|]. pose proof (CALL CPrepare l) as C. destruct (call ask CPrepare l) as [l1 o]. cbn in C.
    destruct o; try easy. pose proof (CK (st_assign st_default (r_st a))) as K.
    destruct (check (st_assign st_default (r_st a))) as [st1|st1|st1 m| |]; first [apply REST|easy]. }
  unfold fat. cbn [negb]. destruct s as [l p]. cbn [fst snd]. set (l0 := l ++ [(CMark f, r_none)]).
  assert (T : snd (match f with
      | FInit => let '(l1, c) := try_simple ask ABeginInit AFinishInit CInit n l0 in (l1, false, c)
      | FRun => try_run ask n loop (S fuel) p l0
      | FDestroy => let '(l1, c) := try_simple ask ABeginDestroy AFinishDestroy CDestroy n l0 in (l1, p, c)
      end) <> Fuel).
  { destruct f; [|apply RN|].
    - pose proof (SI ABeginInit AFinishInit CInit l0) as S. now destruct (try_simple ask ABeginInit AFinishInit CInit n l0).
    - pose proof (SI ABeginDestroy AFinishDestroy CDestroy l0) as S. now destruct (try_simple ask ABeginDestroy AFinishDestroy CDestroy n l0). }
  match goal with |- context [match f with FInit => ?a | FRun => ?b | FDestroy => ?c end] =>
    destruct (match f with FInit => a | FRun => b | FDestroy => c end) as [[l1 p1] c0] end.
  cbn [snd] in T. destruct c0 as [st|st|st m| |]; try easy.
  pose proof (ASP AEnterCrashed st_default n l1) as A. destruct (do_aspect ask AEnterCrashed st_default n l1) as [l2 e].
  cbn [snd] in A. destruct e; easy.
Qed.
