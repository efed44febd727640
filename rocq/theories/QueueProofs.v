(** Proofs about the task queues. *)
From Verif Require Export QueueSpec.
Local Open Scope nat_scope.
Local Open Scope list_scope.

Lemma list_eqb_true a b : list_eqb a b = true <-> a = b.
Proof. unfold list_eqb. destruct (list_eq_dec Nat.eq_dec a b); split; congruence. Qed.
Lemma list_eqb_refl a : list_eqb a a = true.
Proof. apply list_eqb_true. reflexivity. Qed.

Definition phase_of (p : qpc) : phase :=
  match p with
  | PIdle => HIdle
  | PTest o | PTry o | PIn o _ _ _ | PUnlock o _ => HCalled o
  | PNotify _ got => HDone got
  | PLock | PEval _ | PSleep | PWake _ | PFail => HCalled OTimed
  | PRLock | PRIn => HCalled OReset
  | PRNotify => HDone []
  end.
Definition pc_ok (p : qpc) : Prop :=
  match p with
  | PTest o => match o with OPop _ | OSteal _ => True | _ => False end
  | PTry o | PIn o _ _ _ => match o with OTimed | OReset => False | _ => True end
  | _ => True
  end.
Definition mid (l0 l : list nat) (p : qpc) : Prop :=
  match p with
  | PIn o todo k got =>
      match o with
      | OPush vs _ => got = [] /\ exists d, vs = d ++ todo /\ l = l0 ++ d
      | OTryPush v => got = [] /\ exists d, [v] = d ++ todo /\ l = l0 ++ d
      | OPop n => l0 = got ++ l /\ length got + k = n
      | OSteal n => rev l0 = got ++ rev l /\ length got + k = n
      | _ => False
      end
  | PUnlock o got => lin_step l0 o got = Some l
  | _ => l = l0
  end.
Record inv (s : qst) : Prop := {
  i_own : forall t, holds (q_pc s t) = true <-> q_own s = Some t;
  i_lin : exists l0, replay [] (q_tr s) = Some l0 /\ match q_own s with None => q_l s = l0 | Some t => mid l0 (q_l s) (q_pc s t) end;
  i_proto : forall t, proto t HIdle (q_tr s) = Some (phase_of (q_pc s t));
  i_pc : forall t, pc_ok (q_pc s t) }.

Lemma inv_init : inv q_init.
Proof.
  split; cbn.
  - intros t. split; discriminate.
  - exists []. auto.
  - reflexivity.
  - intros _. exact I.
Qed.

Lemma replay_app a b l : replay l (a ++ b) = match replay l a with Some l1 => replay l1 b | None => None end.
Proof.
  revert l. induction a as [|e r IH]; intros l; [reflexivity|]. cbn [app replay]. destruct e; auto. destruct (lin_step l o got); auto.
Qed.
Lemma proto_app t a b h : proto t h (a ++ b) = match proto t h a with Some h1 => proto t h1 b | None => None end.
Proof.
  revert h. induction a as [|e r IH]; intros h; [reflexivity|]. cbn [app proto]. destruct (proto_step t h e); auto.
Qed.

(** How a step of one thread keeps the invariant: what it does to the own-ership, the trace and its own place. *)
Lemma own_upd s t p own' : inv s -> (q_own s = None \/ q_own s = Some t) -> (if holds p then own' = Some t else own' = None) ->
  forall u, holds (upd (q_pc s) t p u) = true <-> own' = Some u.
Proof.
  intros V O H u. destruct (Nat.eq_dec u t) as [->|N].
  - rewrite upd_same. destruct (holds p); rewrite H; split; congruence.
  - rewrite upd_other by congruence. rewrite (i_own s V u).
    assert (X : q_own s <> Some u) by (destruct O as [-> | ->]; congruence). assert (Y : own' <> Some u) by (destruct (holds p); rewrite H; congruence).
    tauto.
Qed.
Lemma own_same s t p : inv s -> holds p = holds (q_pc s t) -> forall u, holds (upd (q_pc s) t p u) = true <-> q_own s = Some u.
Proof.
  intros V H u. destruct (Nat.eq_dec u t) as [->|N]; [rewrite upd_same, H|rewrite upd_other by congruence]; apply (i_own s V).
Qed.
Lemma pc_upd s t p : inv s -> pc_ok p -> forall u, pc_ok (upd (q_pc s) t p u).
Proof. intros V H u. destruct (Nat.eq_dec u t) as [->|N]; [rewrite upd_same; exact H|rewrite upd_other by congruence; apply (i_pc s V)]. Qed.
Lemma proto_same s t p : inv s -> phase_of p = phase_of (q_pc s t) -> forall u, proto u HIdle (q_tr s) = Some (phase_of (upd (q_pc s) t p u)).
Proof.
  intros V H u. destruct (Nat.eq_dec u t) as [->|N]; [rewrite upd_same, H|rewrite upd_other by congruence]; apply (i_proto s V).
Qed.
Definition ev_of (t : nat) (e : qev) : Prop := match e with VCall u _ | VLin u _ _ | VRet u _ => u = t end.
Lemma proto_other t u e h : ev_of t e -> u <> t -> proto_step u h e = Some h.
Proof. intros E N. destruct e; cbn in E |- *; subst; rewrite (proj2 (Nat.eqb_neq t u)) by congruence; reflexivity. Qed.
Lemma proto_one s t p e : inv s -> ev_of t e -> proto_step t (phase_of (q_pc s t)) e = Some (phase_of p) ->
  forall u, proto u HIdle (q_tr s ++ [e]) = Some (phase_of (upd (q_pc s) t p u)).
Proof.
  intros V E H u. rewrite proto_app, (i_proto s V u). cbn [proto]. destruct (Nat.eq_dec u t) as [->|N].
  - rewrite upd_same, H. reflexivity.
  - rewrite upd_other by congruence. rewrite (proto_other t u e _ E N). reflexivity.
Qed.
Lemma proto_two s t p e f h : inv s -> ev_of t e -> ev_of t f -> proto_step t (phase_of (q_pc s t)) e = Some h -> proto_step t h f = Some (phase_of p) ->
  forall u, proto u HIdle ((q_tr s ++ [e]) ++ [f]) = Some (phase_of (upd (q_pc s) t p u)).
Proof.
  intros V E F H K u. rewrite <- app_assoc, proto_app, (i_proto s V u). cbn [app proto]. destruct (Nat.eq_dec u t) as [->|N].
  - rewrite upd_same, H, K. reflexivity.
  - rewrite upd_other by congruence. rewrite (proto_other t u e _ E N), (proto_other t u f _ F N). reflexivity.
Qed.
(** The list under a change of somebody who does not have the mutex. *)
Lemma lin_other s t p : inv s -> holds (q_pc s t) = false ->
  exists l0, replay [] (q_tr s) = Some l0 /\ match q_own s with None => q_l s = l0 | Some u => mid l0 (q_l s) (upd (q_pc s) t p u) end.
Proof.
  intros V H. destruct (i_lin s V) as (l0 & R & M). exists l0. split; [exact R|]. destruct (q_own s) as [u|] eqn:O; [|exact M].
  rewrite upd_other; [exact M|]. intros ->. apply (i_own s V) in O. congruence.
Qed.
Lemma replay_quiet tr e : (match e with VLin _ _ _ => False | _ => True end) -> replay [] (tr ++ [e]) = replay [] tr.
Proof. intros H. rewrite replay_app. destruct (replay [] tr); [|reflexivity]. destruct e; [reflexivity|contradiction|reflexivity]. Qed.

Lemma ret_inv s t r : inv s -> holds (q_pc s t) = false -> proto_step t (phase_of (q_pc s t)) (VRet t r) = Some HIdle -> inv (ret s t r).
Proof.
  intros V H P. unfold ret. split; cbn [q_own q_l q_pc q_tr].
  - apply own_same; [exact V|symmetry; exact H].
  - rewrite replay_quiet by exact I. apply lin_other; assumption.
  - apply proto_one; [exact V|reflexivity|exact P].
  - apply pc_upd; [exact V|exact I].
Qed.
Lemma set_inv s t p : inv s -> holds (q_pc s t) = false -> holds p = false -> phase_of p = phase_of (q_pc s t) -> pc_ok p -> inv (set_pc s t p).
Proof.
  intros V H K P Q. unfold set_pc. split; cbn [q_own q_l q_pc q_tr].
  - apply own_same; [exact V|congruence].
  - apply lin_other; assumption.
  - apply proto_same; assumption.
  - apply pc_upd; assumption.
Qed.
(** A step of the thread that has the mutex. *)
Lemma hold_inv s t p l : inv s -> holds (q_pc s t) = true -> holds p = true -> phase_of p = phase_of (q_pc s t) -> pc_ok p ->
  (forall l0, mid l0 (q_l s) (q_pc s t) -> mid l0 l p) -> inv (mkQ (q_own s) l (q_ready s) (upd (q_pc s) t p) (q_tr s)).
Proof.
  intros V H K P Q M. assert (O := proj1 (i_own s V t) H). split; cbn [q_own q_l q_pc q_tr].
  - apply own_same; [exact V|congruence].
  - destruct (i_lin s V) as (l0 & R & X). exists l0. split; [exact R|]. rewrite O in *. rewrite upd_same. apply M, X.
  - apply proto_same; assumption.
  - apply pc_upd; assumption.
Qed.
Lemma take_inv s t p : inv s -> q_own s = None -> holds (q_pc s t) = false -> holds p = true -> phase_of p = phase_of (q_pc s t) -> pc_ok p ->
  (forall l, mid l l p) -> inv (mkQ (Some t) (q_l s) (q_ready s) (upd (q_pc s) t p) (q_tr s)).
Proof.
  intros V O H K P Q M. split; cbn [q_own q_l q_pc q_tr].
  - apply own_upd; [exact V|tauto|rewrite K; reflexivity].
  - destruct (i_lin s V) as (l0 & R & X). exists l0. split; [exact R|]. rewrite O in X. rewrite upd_same, X. apply M.
  - apply proto_same; assumption.
  - apply pc_upd; assumption.
Qed.
Lemma free_inv s t p rd tr : inv s -> holds (q_pc s t) = true -> holds p = false -> pc_ok p ->
  (exists l0, replay [] tr = Some l0 /\ q_l s = l0) -> (forall u, proto u HIdle tr = Some (phase_of (upd (q_pc s) t p u))) ->
  inv (mkQ None (q_l s) rd (upd (q_pc s) t p) tr).
Proof.
  intros V H K Q L P. assert (O := proj1 (i_own s V t) H). split; cbn [q_own q_l q_pc q_tr].
  - apply own_upd; [exact V|tauto|rewrite K; reflexivity].
  - exact L.
  - exact P.
  - apply pc_upd; assumption.
Qed.

Lemma pop_done n k (got l : list nat) : length got + k = n -> k = 0 \/ l = [] -> firstn n (got ++ l) = got /\ skipn n (got ++ l) = l.
Proof.
  intros L [-> | ->].
  - rewrite Nat.add_0_r in L. subst n. rewrite firstn_app, skipn_app, Nat.sub_diag, firstn_all, skipn_all. cbn. rewrite app_nil_r. auto.
  - rewrite app_nil_r. split; [apply firstn_all2|apply skipn_all2]; lia.
Qed.

Lemma step_inv n s lb s' : inv s -> qstep n s lb = Some s' -> inv s'.
Proof.
  intros V. destruct lb as [t o|t w|t|t]; cbn [qstep]; destruct (Nat.ltb t n); try discriminate.
  - (* call *)
    destruct (q_pc s t) eqn:P; try discriminate. intros H. injection H as <-. split; cbn [q_own q_l q_pc q_tr].
    + apply own_same; [exact V|rewrite P; destruct o; reflexivity].
    + rewrite replay_quiet by exact I. apply lin_other; [exact V|rewrite P; reflexivity].
    + apply proto_one; [exact V|reflexivity|]. rewrite P. cbn [phase_of proto_step]. rewrite Nat.eqb_refl. destruct o; reflexivity.
    + apply pc_upd; [exact V|destruct o; exact I].
  - (* step *)
    pose proof (i_pc s V t) as PK.
    destruct (q_pc s t) as [|o|o|o todo k got|o got|o got| |late| |late| | | |] eqn:P; cbn [pc_ok] in PK; try discriminate.
    + destruct (q_l s); intros H; injection H as <-.
      * apply ret_inv; [exact V|rewrite P; reflexivity|]. rewrite P. cbn. rewrite Nat.eqb_refl. destruct o; try contradiction; reflexivity.
      * apply set_inv; try exact V; try rewrite P; try reflexivity. destruct o; try contradiction; exact I.
    + destruct (q_own s) eqn:O.
      * destruct o; try contradiction; intros H; injection H as <-; [exact V| | |];
          (apply ret_inv; [exact V|rewrite P; reflexivity|rewrite P; cbn; rewrite Nat.eqb_refl; reflexivity]).
      * intros H; injection H as <-. apply take_inv; try exact V; try exact O; try (rewrite P; reflexivity); try (rewrite P); try (destruct o; try contradiction; reflexivity).
        intros l. destruct o; try contradiction; cbn.
        -- split; [reflexivity|]. exists []. rewrite app_nil_r. auto.
        -- split; [reflexivity|]. exists []. rewrite app_nil_r. auto.
        -- auto.
        -- auto.
    + assert (HH : holds (q_pc s t) = true) by (rewrite P; reflexivity).
      destruct o; try contradiction.
      * destruct todo as [|x r]; intros H; injection H as <-.
        -- apply (hold_inv s t (PUnlock (OPush vs notify) got) (q_l s)); try exact V; try exact HH; try rewrite P; try reflexivity.
           intros l0. cbn [mid lin_step]. intros (-> & d & -> & ->). rewrite list_eqb_refl, app_nil_r. reflexivity.
        -- apply hold_inv; try exact V; try exact HH; try rewrite P; try reflexivity; try exact I.
           intros l0. cbn [mid]. intros (-> & d & -> & ->). split; [reflexivity|]. exists (d ++ [x]). rewrite <- !app_assoc. auto.
      * destruct todo as [|x r]; intros H; injection H as <-.
        -- apply (hold_inv s t (PUnlock (OTryPush v) got) (q_l s)); try exact V; try exact HH; try rewrite P; try reflexivity.
           intros l0. cbn [mid lin_step]. intros (-> & d & E & ->). rewrite list_eqb_refl, app_nil_r in *. rewrite E. reflexivity.
        -- apply hold_inv; try exact V; try exact HH; try rewrite P; try reflexivity; try exact I.
           intros l0. cbn [mid]. intros (-> & d & E & ->). split; [reflexivity|]. exists (d ++ [x]). rewrite <- !app_assoc. auto.
      * assert (DONE : k = 0 \/ q_l s = [] -> inv (set_pc s t (PUnlock (OPop n0) got))).
        { intros D. apply (hold_inv s t (PUnlock (OPop n0) got) (q_l s)); try exact V; try exact HH; try rewrite P; try reflexivity.
          intros l0. cbn [mid lin_step]. intros (-> & L). destruct (pop_done _ _ _ _ L D) as [-> ->]. rewrite list_eqb_refl. reflexivity. }
        destruct k as [|j]; [intros H; injection H as <-; apply DONE; auto|].
        destruct (q_l s) as [|x r] eqn:Q; [intros H; injection H as <-; apply DONE; auto|]. intros H; injection H as <-. clear DONE.
        apply hold_inv; try exact V; try exact HH; try rewrite P; try reflexivity; try exact I.
        intros l0. cbn [mid]. intros (E & L). rewrite Q in E. rewrite <- app_assoc, app_length. cbn [app length]. split; [exact E|lia].
      * assert (DONE : k = 0 \/ rev (q_l s) = [] -> inv (set_pc s t (PUnlock (OSteal n0) got))).
        { intros D. apply (hold_inv s t (PUnlock (OSteal n0) got) (q_l s)); try exact V; try exact HH; try rewrite P; try reflexivity.
          intros l0. cbn [mid lin_step]. intros (E & L). rewrite E. destruct (pop_done _ _ _ _ L D) as [-> ->]. rewrite list_eqb_refl, rev_involutive. reflexivity. }
        destruct k as [|j]; [intros H; injection H as <-; apply DONE; auto|].
        destruct (rev (q_l s)) as [|x r] eqn:Q; [intros H; injection H as <-; apply DONE; auto|]. intros H; injection H as <-. clear DONE.
        apply hold_inv; try exact V; try exact HH; try rewrite P; try reflexivity; try exact I.
        intros l0. cbn [mid]. intros (E & L). rewrite Q in E. rewrite rev_involutive, <- app_assoc, app_length. cbn [app length]. split; [exact E|lia].
    + assert (HH : holds (q_pc s t) = true) by (rewrite P; reflexivity). assert (O := proj1 (i_own s V t) HH).
      destruct (i_lin s V) as (l0 & R & X). rewrite O, P in X. cbn [mid] in X.
      assert (R1 : replay [] (q_tr s ++ [VLin t o got]) = Some (q_l s)) by (rewrite replay_app, R; cbn [replay]; rewrite X; reflexivity).
      assert (S1 : proto_step t (phase_of (q_pc s t)) (VLin t o got) = Some (HDone got)).
      { rewrite P. cbn [phase_of proto_step]. rewrite Nat.eqb_refl. destruct (qop_eq o o); congruence. }
      assert (S2 : proto_step t (HDone got) (VRet t (Some got)) = Some HIdle).
      { cbn [proto_step]. rewrite Nat.eqb_refl, list_eqb_refl. reflexivity. }
      assert (B : inv (mkQ None (q_l s) (q_ready s) (upd (q_pc s) t PIdle) ((q_tr s ++ [VLin t o got]) ++ [VRet t (Some got)]))).
      { apply free_inv; try exact V; try exact HH; try reflexivity; try exact I.
        - exists (q_l s). split; [|reflexivity]. rewrite replay_quiet by exact I. exact R1.
        - eapply proto_two; [exact V|reflexivity|reflexivity|exact S1|exact S2]. }
      assert (C : inv (mkQ None (q_l s) (q_ready s) (upd (q_pc s) t (PNotify o got)) (q_tr s ++ [VLin t o got]))).
      { apply free_inv; try exact V; try exact HH; try reflexivity; try exact I.
        - exists (q_l s). split; [exact R1|reflexivity].
        - apply proto_one; [exact V|reflexivity|exact S1]. }
      destruct o; try (intros H; injection H as <-; exact B). destruct notify; intros H; injection H as <-; [exact C|exact B].
    + assert (S2 : forall z, q_pc z t = PNotify o got -> proto_step t (phase_of (q_pc z t)) (VRet t (Some got)) = Some HIdle).
      { intros z ->. cbn [phase_of proto_step]. rewrite Nat.eqb_refl, list_eqb_refl. reflexivity. }
      destruct w as [x|].
      * destruct (Nat.ltb x n); cbn [andb]; [|discriminate]. destruct (q_pc s x) eqn:PX; cbn [is_sleep]; try discriminate. intros H; injection H as <-.
        assert (N : x <> t) by congruence.
        assert (V1 : inv (set_pc s x (PWake false))) by (apply set_inv; try exact V; try rewrite PX; try reflexivity; exact I).
        assert (P1 : q_pc (set_pc s x (PWake false)) t = PNotify o got) by (cbn [set_pc q_pc]; rewrite upd_other by congruence; exact P).
        apply ret_inv; [exact V1|rewrite P1; reflexivity|apply S2, P1].
      * destruct (existsb _ _); [discriminate|]. intros H; injection H as <-. apply ret_inv; [exact V|rewrite P; reflexivity|apply S2, P].
    + destruct (q_own s) eqn:O; [discriminate|]. intros H; injection H as <-.
      apply take_inv; try exact V; try exact O; try (rewrite P); try reflexivity; try exact I.
    + assert (HH : holds (q_pc s t) = true) by (rewrite P; reflexivity). assert (O := proj1 (i_own s V t) HH).
      destruct (q_ready s) eqn:RD.
      * destruct (q_l s) as [|x r] eqn:Q.
        -- destruct late; intros H; injection H as <-.
           ++ apply (hold_inv s t PFail (q_l s)); try exact V; try exact HH; try rewrite P; try reflexivity; try exact I. intros l0; cbn [mid]; tauto.
           ++ rewrite <- Q. apply free_inv; try exact V; try exact HH; try reflexivity; try exact I.
              ** destruct (i_lin s V) as (l0 & R & X). rewrite O, P in X. cbn [mid] in X. exists l0. auto.
              ** apply proto_same; [exact V|rewrite P; reflexivity].
        -- intros H; injection H as <-. rewrite <- RD. apply hold_inv; try exact V; try exact HH; try rewrite P; try reflexivity; try exact I.
           intros l0. cbn [mid lin_step]. rewrite Q. intros <-. rewrite list_eqb_refl. reflexivity.
      * intros H; injection H as <-. apply (hold_inv s t PFail (q_l s)); try exact V; try exact HH; try rewrite P; try reflexivity; try exact I. intros l0; cbn [mid]; tauto.
    + destruct (q_own s) eqn:O; [discriminate|]. intros H; injection H as <-.
      apply take_inv; try exact V; try exact O; try (rewrite P); try reflexivity; try exact I.
    + assert (HH : holds (q_pc s t) = true) by (rewrite P; reflexivity). assert (O := proj1 (i_own s V t) HH).
      intros H; injection H as <-. unfold ret. cbn [q_own q_l q_ready q_pc q_tr]. apply free_inv; try exact V; try exact HH; try reflexivity; try exact I.
      * destruct (i_lin s V) as (l0 & R & X). rewrite O, P in X. cbn [mid] in X. exists l0. rewrite replay_quiet by exact I. auto.
      * apply proto_one; [exact V|reflexivity|]. rewrite P. cbn. rewrite Nat.eqb_refl. reflexivity.
    + destruct (q_own s) eqn:O; [discriminate|]. intros H; injection H as <-.
      apply take_inv; try exact V; try exact O; try (rewrite P); try reflexivity; try exact I.
    + assert (HH : holds (q_pc s t) = true) by (rewrite P; reflexivity). assert (O := proj1 (i_own s V t) HH).
      intros H; injection H as <-. apply free_inv; try exact V; try exact HH; try reflexivity; try exact I.
      * destruct (i_lin s V) as (l0 & R & X). rewrite O, P in X. cbn [mid] in X. exists l0. rewrite replay_app, R. cbn. auto.
      * apply proto_one; [exact V|reflexivity|]. rewrite P. cbn [phase_of proto_step]. rewrite Nat.eqb_refl. destruct (qop_eq OReset OReset); congruence.
    + intros H; injection H as <-.
      assert (V1 : inv (mkQ (q_own s) (q_l s) (q_ready s) (wake_all (q_pc s)) (q_tr s))).
      { assert (HW : forall u, holds (wake_all (q_pc s) u) = holds (q_pc s u)) by (intros u; unfold wake_all; destruct (q_pc s u); reflexivity).
        split; cbn [q_own q_l q_pc q_tr].
        - intros u. rewrite HW. apply (i_own s V).
        - destruct (i_lin s V) as (l0 & R & X). exists l0. split; [exact R|]. destruct (q_own s) as [u|] eqn:O; [|exact X].
          apply (i_own s V) in O. unfold wake_all. destruct (q_pc s u); try discriminate O; exact X.
        - intros u. rewrite (i_proto s V u). unfold wake_all. destruct (q_pc s u); reflexivity.
        - intros u. pose proof (i_pc s V u) as X. unfold wake_all. destruct (q_pc s u); try exact X; exact I. }
      assert (P1 : wake_all (q_pc s) t = PRNotify) by (unfold wake_all; rewrite P; reflexivity).
      apply ret_inv; [exact V1|cbn [q_pc]; rewrite P1; reflexivity|]. cbn [q_pc]. rewrite P1. cbn [phase_of proto_step]. rewrite Nat.eqb_refl. reflexivity.
  - destruct (q_pc s t) eqn:P; try discriminate. intros H; injection H as <-. apply set_inv; try exact V; try rewrite P; try reflexivity; exact I.
  - destruct (q_pc s t) eqn:P; try discriminate. intros H; injection H as <-. apply set_inv; try exact V; try rewrite P; try reflexivity; exact I.
Qed.
Lemma run_inv n ls : forall s s', inv s -> qrun n s ls = Some s' -> inv s'.
Proof.
  induction ls as [|x r IH]; intros s s' V; cbn [qrun]; [congruence|]. destruct (qstep n s x) as [s1|] eqn:S; [|discriminate].
  apply IH. eapply step_inv; eassumption.
Qed.
Lemma reach_inv n ls s : qrun n q_init ls = Some s -> inv s.
Proof. apply run_inv, inv_init. Qed.

(** Conservation and order. *)
Lemma lin_perm l o got l1 tr : lin_step l o got = Some l1 ->
  Permutation (l ++ pushed (VLin 0 o got :: tr)) (got ++ l1 ++ pushed tr).
Proof.
  unfold pushed. cbn [flat_map]. destruct o as [vs b|v|n|n| |]; cbn [lin_step].
  - destruct (list_eqb got []) eqn:E; [|discriminate]. apply list_eqb_true in E. intros H; injection H as <-; subst. cbn. rewrite app_assoc. reflexivity.
  - destruct (list_eqb got []) eqn:E; [|discriminate]. apply list_eqb_true in E. intros H; injection H as <-; subst. cbn. rewrite <- app_assoc. reflexivity.
  - destruct (list_eqb got (firstn n l)) eqn:E; [|discriminate]. apply list_eqb_true in E. intros H; injection H as <-; subst. cbn [app]. rewrite app_assoc, firstn_skipn. reflexivity.
  - destruct (list_eqb got (firstn n (rev l))) eqn:E; [|discriminate]. apply list_eqb_true in E. intros H; injection H as <-; subst. cbn [app]. rewrite app_assoc. apply Permutation_app_tail.
    transitivity (firstn n (rev l) ++ skipn n (rev l)); [rewrite firstn_skipn; apply Permutation_rev|apply Permutation_app_head, Permutation_rev].
  - destruct l as [|x r]; [discriminate|]. destruct (list_eqb got [x]) eqn:E; [|discriminate]. apply list_eqb_true in E. intros H; injection H as <-; subst. reflexivity.
  - destruct (list_eqb got []) eqn:E; [|discriminate]. apply list_eqb_true in E. intros H; injection H as <-; subst. reflexivity.
Qed.
Lemma pushed_any t o got tr : pushed (VLin t o got :: tr) = pushed (VLin 0 o got :: tr).
Proof. reflexivity. Qed.
Lemma replay_perm tr : forall l l', replay l tr = Some l' -> Permutation (l ++ pushed tr) (taken tr ++ l').
Proof.
  induction tr as [|e r IH]; intros l l'; cbn [replay].
  - intros H; injection H as <-. cbn. rewrite app_nil_r. reflexivity.
  - destruct e as [t o|t o got|t x]; try apply IH. destruct (lin_step l o got) as [l1|] eqn:L; [|discriminate]. intros H. apply IH in H.
    rewrite pushed_any, (lin_perm _ _ _ _ r L). unfold taken. cbn [flat_map]. rewrite <- app_assoc. apply Permutation_app_head. exact H.
Qed.
Lemma replay_fifo tr : (forall t n got, ~ In (VLin t (OSteal n) got) tr) -> forall l l', replay l tr = Some l' -> l ++ pushed tr = taken tr ++ l'.
Proof.
  intros NS. induction tr as [|e r IH]; intros l l'; cbn [replay].
  - intros H; injection H as <-. cbn. apply app_nil_r.
  - assert (NS1 : forall t n got, ~ In (VLin t (OSteal n) got) r) by (intros t n got X; apply (NS t n got); right; exact X).
    destruct e as [t o|t o got|t x]; try apply (IH NS1). destruct (lin_step l o got) as [l1|] eqn:L; [|discriminate]. intros H. apply (IH NS1) in H.
    unfold pushed, taken in *. cbn [flat_map]. rewrite <- app_assoc, <- H. clear H IH.
    destruct o as [vs b|v|n|n| |]; cbn [lin_step] in L.
    + destruct (list_eqb got []) eqn:E; [|discriminate]. apply list_eqb_true in E. injection L as <-. subst. cbn. rewrite app_assoc. reflexivity.
    + destruct (list_eqb got []) eqn:E; [|discriminate]. apply list_eqb_true in E. injection L as <-. subst. cbn. rewrite <- app_assoc. reflexivity.
    + destruct (list_eqb got (firstn n l)) eqn:E; [|discriminate]. apply list_eqb_true in E. injection L as <-. subst. cbn [app]. rewrite app_assoc, firstn_skipn. reflexivity.
    + exfalso. apply (NS t n got). left. reflexivity.
    + destruct l as [|x l]; [discriminate|]. destruct (list_eqb got [x]) eqn:E; [|discriminate]. apply list_eqb_true in E. injection L as <-. subst. reflexivity.
    + destruct (list_eqb got []) eqn:E; [|discriminate]. apply list_eqb_true in E. injection L as <-. subst. reflexivity.
Qed.
Lemma proto_called t o got tr : forall h h', proto t h tr = Some h' -> In (VLin t o got) tr -> h = HCalled o \/ In (VCall t o) tr.
Proof.
  induction tr as [|e r IH]; intros h h'; cbn [proto]; [intros _ []|]. destruct (proto_step t h e) as [h1|] eqn:S; [|discriminate]. intros H [-> | X].
  - cbn [proto_step] in S. rewrite Nat.eqb_refl in S. destruct h as [|p|g]; try discriminate. destruct (qop_eq o p); [|discriminate]. left. congruence.
  - destruct (IH h1 h' H X) as [-> | Y]; [|right; right; exact Y].
    destruct e as [u p|u p g|u x]; cbn [proto_step] in S; destruct (Nat.eqb u t) eqn:E.
    + apply Nat.eqb_eq in E. destruct h; try discriminate. injection S as ->. right. left. congruence.
    + injection S as ->. auto.
    + destruct h; try discriminate. destruct (qop_eq p o0); discriminate.
    + injection S as ->. auto.
    + destruct h, x; try discriminate; [destruct (is_push o0); discriminate|destruct (list_eqb got0 l); discriminate].
    + injection S as ->. auto.
Qed.

(** Nobody is stuck. *)
Lemma progress n s : inv s -> (forall t, n <= t -> q_pc s t = PIdle) -> (exists t, q_pc s t <> PIdle /\ q_pc s t <> PSleep) ->
  exists t w s', qstep n s (QStep t w) = Some s' /\ (q_own s = None \/ q_own s = Some t).
Proof.
  intros V OUT (t0 & A & B).
  assert (G : exists t, (q_own s = None \/ q_own s = Some t) /\ q_pc s t <> PIdle /\ q_pc s t <> PSleep).
  { destruct (q_own s) as [u|] eqn:O; [|exists t0; auto]. exists u. split; [auto|]. apply (i_own s V) in O. destruct (q_pc s u); try discriminate O; split; discriminate. }
  clear t0 A B. destruct G as (t & O & A & B).
  assert (L : Nat.ltb t n = true).
  { apply Nat.ltb_lt. destruct (Nat.lt_ge_cases t n) as [H|H]; [exact H|]. exfalso. apply A, OUT, H. }
  assert (PLK : forall t1, holds (q_pc s t) = false -> q_own s = Some t1 -> False).
  { intros t1 H K. destruct O as [O|O]; [congruence|]. apply (i_own s V) in O. congruence. }
  cut (exists w s', qstep n s (QStep t w) = Some s'); [intros (w & s' & H); exists t, w, s'; auto|]. cbn [qstep]. rewrite L.
  destruct (q_pc s t) as [|o|o|o todo k got|o got|o got| |late| |late| | | |] eqn:P; try congruence.
  - exists None. destruct (q_l s); eauto.
  - exists None. destruct (q_own s) eqn:Q; [exfalso; eapply PLK; eauto|eauto].
  - exists None. destruct o; first [destruct k, (q_l s); eauto; fail|destruct k, (rev (q_l s)); eauto; fail|destruct todo; eauto].
  - exists None. destruct o; eauto. destruct notify; eauto.
  - destruct (existsb (fun x => is_sleep (q_pc s x)) (seq 0 n)) eqn:E.
    + apply existsb_exists in E. destruct E as (x & X & Y). apply in_seq in X. exists (Some x). rewrite (proj2 (Nat.ltb_lt x n)) by lia. rewrite Y. cbn. eauto.
    + exists None. eauto.
  - exists None. destruct (q_own s) eqn:Q; [exfalso; eapply PLK; eauto|eauto].
  - exists None. destruct (q_ready s); [|eauto]. destruct (q_l s); eauto. destruct late; eauto.
  - exists None. destruct (q_own s) eqn:Q; [exfalso; eapply PLK; eauto|eauto].
  - exists None. eauto.
  - exists None. destruct (q_own s) eqn:Q; [exfalso; eapply PLK; eauto|eauto].
  - exists None. eauto.
  - exists None. eauto.
Qed.
Lemma step_out n s lb s' : qstep n s lb = Some s' -> (forall t, n <= t -> q_pc s t = PIdle) -> (forall t, n <= t -> q_pc s' t = PIdle).
Proof.
  intros H OUT u U.
  assert (U1 : forall t p, t < n -> upd (q_pc s) t p u = PIdle) by (intros t p L; rewrite upd_other by lia; apply OUT, U).
  destruct lb as [t o|t w|t|t]; cbn [qstep] in H; destruct (Nat.ltb t n) eqn:L; try discriminate; apply Nat.ltb_lt in L.
  - destruct (q_pc s t); try discriminate. injection H as <-. apply U1, L.
  - destruct (q_pc s t) as [|o|o|o todo k got|o got|o got| |late| |late| | | |] eqn:P; try discriminate.
    + destruct (q_l s); injection H as <-; apply U1, L.
    + destruct (q_own s); [destruct o; injection H as <-; try apply OUT, U; apply U1, L|injection H as <-; apply U1, L].
    + destruct o; first [destruct k, (q_l s); injection H as <-; apply U1, L|destruct k, (rev (q_l s)); injection H as <-; apply U1, L|destruct todo; injection H as <-; apply U1, L].
    + destruct o; try (injection H as <-; apply U1, L). destruct notify; injection H as <-; apply U1, L.
    + destruct w as [x|].
      * destruct (Nat.ltb x n) eqn:X; cbn [andb] in H; [|discriminate]. apply Nat.ltb_lt in X. destruct (is_sleep (q_pc s x)); [|discriminate]. injection H as <-.
        cbn [ret set_pc q_pc]. rewrite upd_other by lia. apply U1, X.
      * destruct (existsb _ _); [discriminate|]. injection H as <-. apply U1, L.
    + destruct (q_own s); [discriminate|]. injection H as <-. apply U1, L.
    + destruct (q_ready s); [|injection H as <-; apply U1, L]. destruct (q_l s); [destruct late|]; injection H as <-; apply U1, L.
    + destruct (q_own s); [discriminate|]. injection H as <-. apply U1, L.
    + injection H as <-. apply U1, L.
    + destruct (q_own s); [discriminate|]. injection H as <-. apply U1, L.
    + injection H as <-. apply U1, L.
    + injection H as <-. cbn [ret q_pc]. rewrite upd_other by lia. unfold wake_all. rewrite (OUT u U). reflexivity.
  - destruct (q_pc s t); try discriminate. injection H as <-. apply U1, L.
  - destruct (q_pc s t); try discriminate. injection H as <-. apply U1, L.
Qed.
Lemma run_out n ls : forall s s', qrun n s ls = Some s' -> (forall t, n <= t -> q_pc s t = PIdle) -> (forall t, n <= t -> q_pc s' t = PIdle).
Proof.
  induction ls as [|x r IH]; intros s s'; cbn [qrun]; [intros H; injection H as ->; auto|]. destruct (qstep n s x) as [s1|] eqn:S; [|discriminate].
  intros H O. apply (IH s1 s' H). eapply step_out; eassumption.
Qed.
