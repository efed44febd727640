(** Proofs about refused registrations. *)
From Verif Require Export RegSpec.
Local Open Scope nat_scope.
Local Open Scope list_scope.

Lemma obelong_eqb_eq a b : obelong_eqb a b = true <-> a = b.
Proof.
  destruct a as [x|], b as [y|]; cbn; split; intros H; try discriminate; try reflexivity.
  - apply Nat.eqb_eq in H. congruence.
  - injection H as ->. apply Nat.eqb_refl.
Qed.
Lemma ins_in l x y : In y (ins l x) <-> In y l \/ y = x.
Proof.
  unfold ins. destruct (memb x l) eqn:E.
  - apply memb_in in E. split; [tauto|intros [H| ->]; assumption].
  - rewrite in_app_iff. cbn. intuition congruence.
Qed.

Lemma loop_null st this l : (forall pre post, l = pre ++ None :: post -> pre = []) -> In None l -> addDepend_loop st this l = (st, false).
Proof.
  intros NF I. apply in_split in I. destruct I as (a & b & ->). rewrite (NF a b eq_refl). reflexivity.
Qed.
Lemma loop_none st this l : (forall d, In (Some d) l -> ~ (d <> this /\ e_belong (st d) = e_belong (st this))) -> fst (addDepend_loop st this l) = st.
Proof.
  induction l as [|[d|] r IH]; intros H; try reflexivity. cbn [addDepend_loop].
  destruct (obelong_eqb (e_belong (st d)) (e_belong (st this))) eqn:E; cbn [negb]; [|reflexivity].
  apply obelong_eqb_eq in E. destruct (Nat.eqb this d) eqn:Q.
  - apply IH. intros x I. apply H. right. exact I.
  - apply Nat.eqb_neq in Q. exfalso. apply (H d); [left; reflexivity|]. split; congruence.
Qed.

(** What an unfinished loop leaves of the other elements. *)
Record frame (this : nat) (st st' : gst) : Prop := {
  fr_dep : forall e, e <> this -> e_dep (st' e) = e_dep (st e);
  fr_succ : forall e, e_succ (st' e) = e_succ (st e) \/ e <> this /\ ~ In this (e_succ (st e)) /\ e_succ (st' e) = e_succ (st e) ++ [this];
  fr_rest : forall e, e_belong (st' e) = e_belong (st e) /\ e_init (st' e) = e_init (st e) /\ e_mut (st' e) = e_mut (st e) /\ (e <> this -> e_left (st' e) = e_left (st e)) }.
Lemma frame_refl this st : frame this st st.
Proof. split; intros; auto. Qed.
Lemma frame_trans this a b c : frame this a b -> frame this b c -> frame this a c.
Proof.
  intros [A1 A2 A3] [B1 B2 B3]. split; intros e.
  - intros N. rewrite B1, A1; auto.
  - destruct (B2 e) as [->|(N & I & ->)]; [apply A2|]. destruct (A2 e) as [E|(_ & _ & E)]; rewrite E in I |- *; [tauto|].
    exfalso. apply I. apply in_or_app. cbn. tauto.
  - specialize (A3 e). specialize (B3 e). destruct A3 as (A3 & A4 & A5 & A), B3 as (B3 & B4 & B5 & B).
    do 3 (split; [congruence|]). intros N. rewrite B, A; auto.
Qed.
Lemma frame_one this st d : d <> this ->
  let st1 := upd st d (set_succ (st d) (ins (e_succ (st d)) this)) in
  frame this st (upd st1 this (set_dep (st1 this) (ins (e_dep (st1 this)) d))).
Proof.
  intros N st1. assert (E1 : st1 this = st this) by (unfold st1; apply upd_other; congruence). split; intros e.
  - intros M. rewrite upd_other by congruence. unfold st1. destruct (Nat.eq_dec e d) as [->|K]; [rewrite upd_same; reflexivity|rewrite upd_other by congruence; reflexivity].
  - destruct (Nat.eq_dec e this) as [->|M]; [rewrite upd_same, E1; cbn [set_dep e_succ]; auto|]. rewrite upd_other by congruence. unfold st1.
    destruct (Nat.eq_dec e d) as [->|K]; [|rewrite upd_other by congruence; auto]. rewrite upd_same. cbn [set_succ e_succ]. unfold ins.
    destruct (memb this (e_succ (st d))) eqn:Q; [auto|]. right. apply memb_false in Q. auto.
  - destruct (Nat.eq_dec e this) as [->|M]; [rewrite upd_same, E1; cbn; do 3 (split; [reflexivity|]); congruence|]. rewrite upd_other by congruence. unfold st1.
    destruct (Nat.eq_dec e d) as [->|K]; [rewrite upd_same; cbn|rewrite upd_other by congruence]; auto.
Qed.
Lemma loop_frame this l : forall st, frame this st (fst (addDepend_loop st this l)).
Proof.
  induction l as [|[d|] r IH]; intros st; try apply frame_refl. cbn [addDepend_loop].
  destruct (obelong_eqb _ _); cbn [negb]; [|apply frame_refl].
  destruct (Nat.eqb this d) eqn:Q; [apply IH|]. apply Nat.eqb_neq in Q.
  assert (N : d <> this) by congruence. eapply frame_trans; [exact (frame_one this st d N)|apply IH].
Qed.
Lemma add_frame this l st : frame this st (fst (addDepend st this l)).
Proof.
  unfold addDepend. destruct (negb (e_mut (st this)) && e_init (st this)); [apply frame_refl|].
  pose proof (loop_frame this l st) as F. destruct (addDepend_loop st this l) as [g ok]. cbn [fst] in F. destruct ok; cbn [fst]; [|exact F].
  eapply frame_trans; [exact F|]. split; intros e.
  - intros M. rewrite upd_other by congruence. reflexivity.
  - left. destruct (Nat.eq_dec e this) as [->|M]; [rewrite upd_same|rewrite upd_other by congruence]; reflexivity.
  - destruct (Nat.eq_dec e this) as [->|M]; [rewrite upd_same; cbn; do 3 (split; [reflexivity|]); congruence|rewrite upd_other by congruence; auto].
Qed.

(** Going through [register]. *)
Definition reaches (s : bst) (c : rcall) : Prop :=
  b_init s = false /\ e_init (b_g s (c_this c)) = false /\
  match c_class c with
  | CNew => True
  | CGroup typed => typed = true /\ b_mgr s (c_this c) = false
  | CDirect typed => typed = true /\ b_mgr s (c_this c) = false /\ e_belong (b_g s (c_this c)) = None
  end.
Lemma register_cases s c : (register s c = (s, RRefused)) \/
  (reaches s c /\ b_init s = false /\ e_init (b_g s (c_this c)) = false /\ register s c = inner_reg s c).
Proof.
  unfold register, reaches. destruct (b_init s) eqn:I; [auto|].
  destruct (e_init (b_g s (c_this c))) eqn:E.
  - left. assert (X : inner_reg s c = (s, RRefused)) by (unfold inner_reg, add_info; rewrite I, E; reflexivity).
    destruct (c_class c) as [|[|]|[|]]; try rewrite X; try reflexivity.
    + destruct (b_mgr s (c_this c)); reflexivity.
    + destruct (b_mgr s (c_this c)); reflexivity.
    + destruct (e_belong _); [reflexivity|]. destruct (b_mgr s (c_this c)); reflexivity.
  - destruct (c_class c) as [|[|]|[|]]; auto 10.
    + destruct (b_mgr s (c_this c)); auto 10.
    + destruct (b_mgr s (c_this c)); auto 10.
    + destruct (e_belong _); [auto|]. destruct (b_mgr s (c_this c)); auto 10.
Qed.
Lemma inner_not_ok s c : b_init s = false -> e_init (b_g s (c_this c)) = false -> snd (inner_reg s c) <> ROk ->
  let '(g1, ok) := addDepend_loop (b_g s) (c_this c) (c_deps c) in
  (ok = false /\ inner_reg s c = (set_bg s g1, RRefused)) \/
  (ok = true /\ b_timeout s (c_this c) = true /\ c_loop c <> 1 /\
   inner_reg s c = (set_bg s (upd g1 (c_this c) (set_left (g1 (c_this c)) (Z.of_nat (length (e_dep (g1 (c_this c))))))), RThrown)).
Proof.
  intros I E. unfold inner_reg, add_info, addDepend. rewrite I, E. rewrite Bool.andb_false_r.
  destruct (addDepend_loop (b_g s) (c_this c) (c_deps c)) as [g1 [|]].
  - destruct (b_timeout s (c_this c)) eqn:T; cbn [andb].
    + destruct (Nat.eqb (c_loop c) 1) eqn:L; cbn [negb snd]; [congruence|]. apply Nat.eqb_neq in L. intros _. right. auto.
    + cbn [snd]. congruence.
  - intros _. left. auto.
Qed.

Lemma set_bg_same s : set_bg s (b_g s) = s.
Proof. destruct s. reflexivity. Qed.
Lemma clean_same s c : null_first c -> clean s c -> snd (register s c) <> ROk -> fst (register s c) = s.
Proof.
  intros NF CL NO. destruct (register_cases s c) as [H|(_ & I & E & H)]; rewrite H in *; [reflexivity|].
  pose proof (inner_not_ok s c I E NO) as K.
  destruct CL as [N|[S T]].
  - rewrite (loop_null _ _ _ NF N) in K. destruct K as [[_ ->]|[K _]]; [|discriminate]. cbn [fst]. apply set_bg_same.
  - pose proof (loop_none (b_g s) (c_this c) (c_deps c) S) as Q. destruct (addDepend_loop _ _ _) as [g1 ok]. cbn [fst] in Q. subst g1.
    destruct K as [[_ ->]|(_ & K & _)]; [|congruence]. cbn [fst]. apply set_bg_same.
Qed.
Lemma clean_program_same l : forall s, clean_program s l -> fst (register_all s l) = fst (register_all s (accepted_calls s l)).
Proof.
  induction l as [|c r IH]; intros s; [reflexivity|]. cbn [clean_program register_all accepted_calls].
  intros (NF & CL & CP). pose proof (clean_same s c NF) as SM.
  destruct (register s c) as [s1 o] eqn:R. cbn [fst snd] in *. specialize (IH s1 CP).
  destruct (register_all s1 r) as [s2 os] eqn:RA. cbn [fst] in IH |- *.
  assert (D : o = ROk \/ o <> ROk) by (destruct o; auto; right; discriminate). destruct D as [-> | D].
  - cbn [register_all]. rewrite R. rewrite IH. destruct (register_all s1 (accepted_calls s1 r)). reflexivity.
  - rewrite (SM (CL D) D) in *. destruct o; [congruence|exact IH|exact IH].
Qed.
Lemma accepted_ok l : forall s, clean_program s l -> Forall (fun o => o = ROk) (snd (register_all s (accepted_calls s l))).
Proof.
  induction l as [|c r IH]; intros s; [constructor|]. cbn [clean_program accepted_calls].
  intros (NF & CL & CP). pose proof (clean_same s c NF) as SM.
  destruct (register s c) as [s1 o] eqn:R. cbn [fst snd] in *. specialize (IH s1 CP).
  assert (D : o = ROk \/ o <> ROk) by (destruct o; auto; right; discriminate). destruct D as [-> | D].
  - cbn [register_all]. rewrite R. destruct (register_all s1 (accepted_calls s1 r)). constructor; [reflexivity|exact IH].
  - rewrite (SM (CL D) D) in *. destruct o; [congruence|exact IH|exact IH].
Qed.

Lemma refused_frame s c : snd (register s c) <> ROk ->
  let s' := fst (register s c) in
  b_reg s' = b_reg s /\ b_repo s' = b_repo s /\ b_loop s' = b_loop s /\ b_name s' = b_name s /\ b_timeout s' = b_timeout s /\ b_mgr s' = b_mgr s /\ b_init s' = b_init s /\
  frame (c_this c) (b_g s) (b_g s').
Proof.
  intros NO. destruct (register_cases s c) as [H|(_ & I & E & H)]; rewrite H in *; cbn [fst].
  - do 7 (split; [reflexivity|]). apply frame_refl.
  - pose proof (add_frame (c_this c) (c_deps c) (b_g s)) as F. unfold addDepend in F. rewrite E, Bool.andb_false_r in F.
    pose proof (inner_not_ok s c I E NO) as K. destruct (addDepend_loop _ _ _) as [g1 ok]. destruct K as [[-> K]|(-> & _ & _ & K)]; rewrite K; cbn [fst set_bg b_reg b_repo b_loop b_name b_timeout b_mgr b_init b_g];
      (do 7 (split; [reflexivity|])); exact F.
Qed.

(** The prefix before a foreign dependency stays. *)
Lemma loop_grows this l : forall st d, (In d (e_dep (st this)) -> In d (e_dep (fst (addDepend_loop st this l) this))) /\
  (forall x, In x (e_succ (st d)) -> In x (e_succ (fst (addDepend_loop st this l) d))).
Proof.
  intros st d. split.
  - revert st. induction l as [|[y|] r IH]; intros st H; try exact H. cbn [addDepend_loop].
    destruct (obelong_eqb _ _); cbn [negb]; [|exact H]. destruct (Nat.eqb this y) eqn:Q; [apply IH, H|]. apply IH. rewrite upd_same. cbn [set_dep e_dep].
    apply Nat.eqb_neq in Q. rewrite upd_other by congruence. apply ins_in. tauto.
  - intros x H. pose proof (loop_frame this l st) as [_ F _]. destruct (F d) as [->|(_ & _ & ->)]; [exact H|apply in_or_app; tauto].
Qed.
Lemma loop_prefix this pre b post : forall st,
  (forall d, In d pre -> exists x, d = Some x /\ e_belong (st x) = e_belong (st this)) -> e_belong (st b) <> e_belong (st this) ->
  snd (addDepend_loop st this (pre ++ Some b :: post)) = false /\
  forall d, In (Some d) pre -> d <> this ->
    In d (e_dep (fst (addDepend_loop st this (pre ++ Some b :: post)) this)) /\ In this (e_succ (fst (addDepend_loop st this (pre ++ Some b :: post)) d)).
Proof.
  induction pre as [|y r IH]; intros st P B.
  - cbn [app addDepend_loop]. destruct (obelong_eqb _ _) eqn:E; [apply obelong_eqb_eq in E; contradiction|]. cbn [negb snd fst]. split; [reflexivity|intros d []].
  - destruct (P y) as (x & -> & X); [left; reflexivity|]. cbn [app addDepend_loop].
    rewrite (proj2 (obelong_eqb_eq _ _) X). cbn [negb]. destruct (Nat.eqb this x) eqn:Q.
    + apply Nat.eqb_eq in Q. subst x. destruct (IH st) as [A C]; [intros d I; apply P; right; exact I|exact B|]. split; [exact A|].
      intros d [H|H] N; [congruence|]. apply C; assumption.
    + apply Nat.eqb_neq in Q. set (st1 := upd st x _). set (st2 := upd st1 this _).
      assert (F : frame this st st2) by (apply frame_one; congruence).
      assert (BL : forall e, e_belong (st2 e) = e_belong (st e)) by (intros e; apply (fr_rest _ _ _ F e)).
      destruct (IH st2) as [A C].
      { intros d I. rewrite BL. destruct (P d) as (z & -> & Z); [right; exact I|]. exists z. rewrite BL. auto. }
      { rewrite !BL. exact B. }
      split; [exact A|]. intros d [H|H] N; [|apply C; assumption]. injection H as <-. split.
      * apply loop_grows. unfold st2. rewrite upd_same. cbn [set_dep e_dep]. apply ins_in. tauto.
      * apply loop_grows. unfold st2. rewrite upd_other by congruence. unfold st1. rewrite upd_same. cbn [set_succ e_succ]. apply ins_in. tauto.
Qed.
Lemma refused_prefix s c pre b post : reaches s c -> c_deps c = pre ++ Some b :: post ->
  (forall d, In d pre -> exists x, d = Some x /\ e_belong (b_g s x) = e_belong (b_g s (c_this c))) -> e_belong (b_g s b) <> e_belong (b_g s (c_this c)) ->
  snd (register s c) = RRefused /\
  forall d, In (Some d) pre -> d <> c_this c ->
    In d (e_dep (b_g (fst (register s c)) (c_this c))) /\ In (c_this c) (e_succ (b_g (fst (register s c)) d)).
Proof.
  intros (I & E & CL) D P B.
  assert (R : register s c = inner_reg s c).
  { unfold register. rewrite I. destruct (c_class c) as [|t|t]; [reflexivity| |].
    - destruct CL as [-> ->]. reflexivity.
    - destruct CL as (-> & -> & ->). reflexivity. }
  destruct (loop_prefix (c_this c) pre b post (b_g s) P B) as [Z W].
  rewrite R. unfold inner_reg, add_info, addDepend. rewrite I, E, Bool.andb_false_r, D.
  destruct (addDepend_loop _ _ _) as [g1 ok]. cbn [fst snd] in *. subst ok. cbn [fst snd set_bg b_g]. split; [reflexivity|exact W].
Qed.
