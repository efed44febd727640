(** C119: an accepted registration does what it says, and nothing else; which registrations are accepted. *)
From Verif Require Import RegSpec RegProofs RegProps GraphSpec DepProofs.
Local Open Scope nat_scope.
Local Open Scope list_scope.

(** The element may be registered by such a call: the classes of calls are those of [rclass]. *)
Definition may_register (s : bst) (c : rcall) : Prop :=
  match c_class c with
  | CNew => True                                                  (* a new node or adapter *)
  | CGroup typed => typed = true /\ b_mgr s (c_this c) = false    (* a group of the named class, not registered yet *)
  | CDirect typed => typed = true /\ b_mgr s (c_this c) = false /\ e_belong (b_g s (c_this c)) = None   (* an element of that kind outside of all groups *)
  end.
Lemma loop_ok this l : forall st, snd (addDepend_loop st this l) = true <-> forall d, In d l -> exists x, d = Some x /\ e_belong (st x) = e_belong (st this).
Proof.
  induction l as [|[d|] r IH]; intros st; cbn [addDepend_loop].
  - split; [intros _ d []|reflexivity].
  - destruct (obelong_eqb (e_belong (st d)) (e_belong (st this))) eqn:B; cbn [negb].
    + apply obelong_eqb_eq in B.
      assert (Q : forall st1, frame this st st1 -> snd (addDepend_loop st1 this r) = true <-> (forall d0, In d0 (Some d :: r) -> exists x, d0 = Some x /\ e_belong (st x) = e_belong (st this))).
      { intros st1 F. rewrite IH. split.
        - intros H d0 [<-|I]; [eauto|]. destruct (H d0 I) as (x & -> & X). exists x. rewrite (proj1 (fr_rest _ _ _ F x)), (proj1 (fr_rest _ _ _ F this)) in X. auto.
        - intros H d0 I. destruct (H d0 (or_intror I)) as (x & -> & X). exists x. rewrite (proj1 (fr_rest _ _ _ F x)), (proj1 (fr_rest _ _ _ F this)). auto. }
      destruct (Nat.eqb_spec this d) as [E|N]; [apply Q, frame_refl|apply Q; apply frame_one; congruence].
    + split; [discriminate|]. intros H. destruct (H (Some d) (or_introl eq_refl)) as (x & E & X). injection E as <-. apply obelong_eqb_eq in X. congruence.
  - split; [discriminate|]. intros H. destruct (H None (or_introl eq_refl)) as (x & E & _). discriminate E.
Qed.
Lemma reaches_iff s c : reaches s c <-> b_init s = false /\ e_init (b_g s (c_this c)) = false /\ may_register s c.
Proof. unfold reaches, may_register. tauto. Qed.

(** A registration is accepted exactly when the pipeline and the element are not initialised, the element may be registered this way, every dependence is an element
    with the same parent, and an element with a time limit gets the loop count one. *)
Theorem C119_accepts : forall s c, snd (register s c) = ROk <->
  b_init s = false /\ e_init (b_g s (c_this c)) = false /\ may_register s c /\
  (forall d, In d (c_deps c) -> exists x, d = Some x /\ e_belong (b_g s x) = e_belong (b_g s (c_this c))) /\
  (b_timeout s (c_this c) = true -> c_loop c = 1).
Proof.
  intros s c. rewrite <- loop_ok. destruct (register_cases s c) as [R|(R & I & E & X)].
  - rewrite R. cbn [snd]. split; [discriminate|]. intros (I & E & M & L & T). exfalso. revert R. unfold register, may_register in *. rewrite I.
    assert (Y : snd (inner_reg s c) = ROk).
    { unfold inner_reg, add_info, addDepend. rewrite I, E, Bool.andb_false_r. destruct (addDepend_loop _ _ _) as [g1 ok]. cbn [snd] in L. subst ok.
      destruct (b_timeout s (c_this c)); [rewrite (T eq_refl)|]; reflexivity. }
    destruct (c_class c) as [|ty|ty]; [destruct (inner_reg s c); cbn in Y; congruence| |]; destruct M as [M1 M2]; subst ty.
    + rewrite M2. destruct (inner_reg s c); cbn in Y; congruence.
    + destruct M2 as [M2 M3]. rewrite M2, M3. destruct (inner_reg s c); cbn in Y; congruence.
  - rewrite X. apply reaches_iff in R as (_ & _ & M). unfold inner_reg, add_info, addDepend. rewrite I, E, Bool.andb_false_r.
    destruct (addDepend_loop _ _ _) as [g1 [|]]; cbn [snd].
    + destruct (b_timeout s (c_this c)); cbn [andb]; [|cbn; intuition congruence]. destruct (Nat.eqb_spec (c_loop c) 1); cbn [negb snd]; [tauto|]. split; [discriminate|]. intros (_ & _ & _ & _ & T). now destruct n; apply T.
    + split; [discriminate|]. intros (_ & _ & _ & Y & _). discriminate Y.
Qed.
Print Assumptions C119_accepts.

(** It puts the element into the pipeline, once, with the name, the loop count and, besides those it had, the dependences of the call; all other elements keep theirs. *)
Theorem C119_effect : forall s c s', register s c = (s', ROk) ->
  (forall x, In x (b_reg s') <-> In x (b_reg s) \/ x = c_this c) /\ (NoDup (b_reg s) -> NoDup (b_reg s')) /\
  (forall x, In x (b_repo s') <-> In x (b_repo s) \/ x = c_this c) /\
  b_loop s' (c_this c) = c_loop c /\ b_name s' (c_this c) = c_name c /\ b_mgr s' (c_this c) = true /\
  (forall x, x <> c_this c -> b_loop s' x = b_loop s x /\ b_name s' x = b_name s x /\ b_mgr s' x = b_mgr s x) /\
  (forall a b, depends (b_g s') a b <-> depends (b_g s) a b \/ a = c_this c /\ In (Some b) (c_deps c) /\ b <> c_this c) /\
  (forall x, e_belong (b_g s' x) = e_belong (b_g s x)) /\ b_timeout s' = b_timeout s /\ b_init s' = b_init s.
Proof.
  intros s c s' R. destruct (register_cases s c) as [X|(_ & I & E & X)]; [rewrite X in R; discriminate R|]. rewrite X in R. clear X.
  unfold inner_reg, add_info in R. rewrite I, E in R. destruct (addDepend (b_g s) (c_this c) (c_deps c)) as [g1 ok] eqn:A.
  destruct (addDepend_spec _ _ _ _ _ A) as (done & (rest & D & F) & _ & Hd & Hb & _).
  destruct ok; [|discriminate R]. rewrite (F eq_refl), app_nil_r in D. destruct (_ && _); [discriminate R|]. injection R as <-. cbn [b_reg b_repo b_loop b_name b_mgr b_g b_timeout b_init].
  split; [intros x; apply ins_in|]. split; [|split; [intros x; apply ins_in|]].
  { intros N. unfold ins. destruct (memb (c_this c) (b_reg s)) eqn:M; [exact N|]. apply NoDup_app_iff. split; [exact N|]. split; [repeat constructor; easy|].
    intros y Y [<-|[]]. apply memb_in in Y. congruence. }
  rewrite !upd_same. do 3 (split; [reflexivity|]). split; [intros x N; rewrite !upd_other by exact N; auto|]. split; [|split; [exact Hb|]].
  - intros a b. rewrite Hd, D, in_map_iff. split; [intros [Y|(Y & Z & W)]; [auto|right; eauto]|]. intros [Y|(Y & (z & Ez & Z) & W)]; [auto|]. injection Ez as ->. auto.
  - auto.
Qed.
Print Assumptions C119_effect.

(** The call [c] of a program was accepted. *)
Definition was_accepted (l : list rcall) (os : list routcome) (c : rcall) : Prop := In (c, ROk) (combine l os).
(** So after any program of registrations on an empty pipeline: its elements are those of the accepted calls, each once. *)
Theorem C119_program : forall l s s' os, b_reg s = [] -> register_all s l = (s', os) ->
  NoDup (b_reg s') /\ forall x, In x (b_reg s') <-> exists c, was_accepted l os c /\ c_this c = x.
Proof.
  intros l s s' os E R.
  enough (X : forall l s s' os, NoDup (b_reg s) -> register_all s l = (s', os) -> NoDup (b_reg s') /\ forall x, In x (b_reg s') <-> In x (b_reg s) \/ exists c, was_accepted l os c /\ c_this c = x).
  { destruct (X l s s' os) as [A B]; [rewrite E; constructor|exact R|]. split; [exact A|]. intros x. rewrite B, E. cbn. tauto. }
  clear. induction l as [|c l IH]; intros s s' os N R; cbn [register_all] in R.
  - injection R as <- <-. split; [exact N|]. intros x. split; [auto|]. intros [X|(c & [] & _)]. exact X.
  - destruct (register s c) as [s1 o] eqn:E1. destruct (register_all s1 l) as [s2 os2] eqn:E2. injection R as <- <-.
    assert (Q : NoDup (b_reg s1) /\ forall x, In x (b_reg s1) <-> In x (b_reg s) \/ o = ROk /\ x = c_this c).
    { assert (OD : o = ROk \/ o <> ROk) by (destruct o; auto; right; discriminate). destruct OD as [->|O].
      - destruct (C119_effect _ _ _ E1) as (A & B & _). split; [auto|]. intros x. rewrite A. tauto.
      - destruct (C90_others_partial s c s1 o E1 O) as (A & _). rewrite A. split; [exact N|]. intros x. tauto. }
    destruct Q as [Q1 Q2]. destruct (IH _ _ _ Q1 E2) as [A B]. split; [exact A|]. intros x. rewrite B, Q2. unfold was_accepted. cbn [combine In]. split.
    + intros [[X|[-> ->]]|(d & X & Y)]; [auto|right; exists c; auto|right; exists d; auto].
    + intros [X|(d & [X|X] & Y)]; [auto| |right; exists d; auto]. injection X as -> ->. auto.
Qed.
Print Assumptions C119_program.

(** The pipeline of C90: a node, a cluster depending on it, a refused node, a cluster registered again, a node with loop 3. *)
Example C119_nonvacuous : let '(s, os) := register_all b0 [good; mkC 3 (CGroup true) [Some 0] 8 1; bad; mkC 3 (CGroup true) [] 1 1; mkC 4 CNew [Some 0; Some 3] 0 3] in
  os = [ROk; ROk; RRefused; RRefused; ROk] /\ b_reg s = [0; 3; 4] /\ b_loop s 4 = 3 /\ b_name s 3 = 8 /\ depends (b_g s) 4 3 /\ depends (b_g s) 3 0.
Proof. vm_compute. auto 10. Qed.
