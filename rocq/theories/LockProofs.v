(** Which elements have is_init_ set, and what that means for their settings. *)
From Verif Require Import PipeModel PipeProofs PipeLife PipeProps StatusProofs.
From Verif Require Import LockSpec.
From Coq Require Import Lia Permutation.
Local Open Scope nat_scope.
Local Open Scope list_scope.

(** * Trees *)
(** The elements flagged by fatProcessor(INIT) of [t], once each; and the nodes never flagged. *)
Fixpoint core (t : elt) : list nat :=
  match t with Node _ => [] | Plain e cs => e :: flat_map core cs | Region e cs => e :: flat_map (fun c => match c with Node x => [x] | _ => core c end) cs end.
Definition low (t : elt) : list nat := match t with Node x => [x] | _ => core t end.
Fixpoint forg (t : elt) : list nat :=
  match t with Node _ => [] | Plain _ cs => flat_map (fun c => match c with Node x => [x] | _ => forg c end) cs | Region _ cs => flat_map forg cs end.
Definition tail_part (c : elt) : list nat := match c with Node x => [x] | _ => forg c end.

Lemma perm_flat (f g h : elt -> list nat) cs : Forall (fun c => Permutation (f c) (g c ++ h c)) cs -> Permutation (flat_map f cs) (flat_map g cs ++ flat_map h cs).
Proof.
  induction 1 as [|c cs H F IH]; cbn; [constructor|]. rewrite H, IH. rewrite <- !app_assoc. apply Permutation_app_head. rewrite !app_assoc. apply Permutation_app_tail, Permutation_app_comm.
Qed.
Lemma ids_perm t : Permutation (ids t) (low t ++ forg t) /\ Permutation (ids t) (core t ++ tail_part t).
Proof.
  induction t as [e|e cs IH|e cs IH] using elt_rect'; [cbn; split; constructor; constructor| |].
  - assert (P : Permutation (ids (Plain e cs)) (core (Plain e cs) ++ forg (Plain e cs))).
    { cbn [ids core forg app]. constructor. apply (perm_flat ids core tail_part). eapply Forall_impl; [|exact IH]. cbn. intros a [_ H]. exact H. }
    split; exact P.
  - assert (P : Permutation (ids (Region e cs)) (core (Region e cs) ++ forg (Region e cs))).
    { cbn [ids core forg app]. constructor. apply (perm_flat ids low forg). eapply Forall_impl; [|exact IH]. cbn. intros a [H _]. exact H. }
    split; exact P.
Qed.
Lemma inner_core t : incl (inner t) (core t).
Proof.
  induction t as [e|e cs IH|e cs IH] using elt_rect'; cbn; [easy| |]; (intros x [<-|Hx]; [now left|right]); rewrite Forall_forall in IH;
    apply in_flat_map in Hx; destruct Hx as (c & Hc & Hx); apply in_flat_map; exists c; (split; [exact Hc|]).
  - now apply IH.
  - destruct c as [y|y ds|y ds]; [exact Hx| |]; (destruct Hx as [<-|Hx]; [now left|now apply (IH _ Hc)]).
Qed.
Lemma mgr_low cs x : In x (mgr_ids cs) -> In x (flat_map low cs).
Proof.
  intro H. apply in_flat_map in H. destruct H as (c & Hc & H). apply in_flat_map. exists c. split; [exact Hc|].
  destruct c as [y|y ds|y ds]; [exact H| |]; (destruct H as [<-|H]; [now left|now apply inner_core]).
Qed.
Lemma app_nodup_disj {A} (l1 l2 : list A) x : NoDup (l1 ++ l2) -> In x l1 -> In x l2 -> False.
Proof.
  induction l1 as [|a l1 IH]; cbn; [easy|]. intros N [->|H] H2; inversion N; subst; [apply H1, in_or_app; now right|now apply IH].
Qed.
(** Where the elements sit. *)
Lemma sits_ids cs o t : sits cs o t -> exists c, In c cs /\ In t (subs c).
Proof.
  induction 1 as [t H|o g ds t S (c & Hc & H) Ht|o g ds t S (c & Hc & H) Ht].
  - exists t. split; [exact H|]. destruct t; now left.
  - exists c. split; [exact Hc|]. revert H. clear -Ht. induction c as [e|e cs IH|e cs IH] using elt_rect'; cbn; rewrite ?in_flat_map; intros [E|H]; try discriminate; try easy.
    + right. destruct H as (c & Hc & H). rewrite Forall_forall in IH. exists c. split; [exact Hc|now apply IH].
    + injection E as -> ->. right. exists t. split; [exact Ht|destruct t; now left].
    + right. destruct H as (c & Hc & H). rewrite Forall_forall in IH. exists c. split; [exact Hc|now apply IH].
  - exists c. split; [exact Hc|]. revert H. clear -Ht. induction c as [e|e cs IH|e cs IH] using elt_rect'; cbn; rewrite ?in_flat_map; intros [E|H]; try discriminate; try easy.
    + injection E as -> ->. right. exists t. split; [exact Ht|destruct t; now left].
    + right. destruct H as (c & Hc & H). rewrite Forall_forall in IH. exists c. split; [exact Hc|now apply IH].
    + right. destruct H as (c & Hc & H). rewrite Forall_forall in IH. exists c. split; [exact Hc|now apply IH].
Qed.
Lemma subs_sits cs t : (exists c, In c cs /\ In t (subs c)) -> exists o, sits cs o t.
Proof.
  intros (c & Hc & H). assert (S : exists o, sits cs o c) by (exists OnPipe; now constructor). clear Hc. revert S H.
  induction c as [e|e ds IH|e ds IH] using elt_rect'; intros (o & S) H.
  - destruct H as [<-|[]]. now exists o.
  - destruct H as [<-|H]; [now exists o|]. apply in_flat_map in H. destruct H as (c & Hc & H). rewrite Forall_forall in IH. apply (IH c Hc); [|exact H].
    exists (OnGroup e). eapply sits_group; eassumption.
  - destruct H as [<-|H]; [now exists o|]. apply in_flat_map in H. destruct H as (c & Hc & H). rewrite Forall_forall in IH. apply (IH c Hc); [|exact H].
    exists (OnRegion e). eapply sits_region; eassumption.
Qed.
Lemma group_inner t : grouped t -> forall c, In t (subs c) -> In (eid t) (inner c).
Proof.
  intros G c. induction c as [e|e cs IH|e cs IH] using elt_rect'; cbn.
  - intros [<-|[]]. destruct G.
  - intros [<-|H]; [now left|right]. rewrite in_flat_map in *. destruct H as (c & Hc & H). rewrite Forall_forall in IH. exists c. split; [exact Hc|now apply IH].
  - intros [<-|H]; [now left|right]. rewrite in_flat_map in *. destruct H as (c & Hc & H). rewrite Forall_forall in IH. exists c. split; [exact Hc|right; now apply IH].
Qed.
Lemma region_inner g ds t : In t ds -> forall c, In (Region g ds) (subs c) -> In (eid t) (inner c).
Proof.
  intros Ht c. induction c as [e|e cs IH|e cs IH] using elt_rect'; cbn.
  - intros [E|[]]. discriminate.
  - intros [E|H]; [discriminate|right]. rewrite in_flat_map in *. destruct H as (c & Hc & H). rewrite Forall_forall in IH. exists c. split; [exact Hc|now apply IH].
  - intros [E|H]; right; rewrite in_flat_map in *.
    + injection E as -> ->. exists t. split; [exact Ht|now left].
    + destruct H as (c & Hc & H). rewrite Forall_forall in IH. exists c. split; [exact Hc|right; now apply IH].
Qed.
Lemma plain_forg g ds x : In (Node x) ds -> forall c, In (Plain g ds) (subs c) -> In x (forg c).
Proof.
  intros Ht c. induction c as [e|e cs IH|e cs IH] using elt_rect'; cbn.
  - intros [E|[]]. discriminate.
  - intros [E|H]; rewrite in_flat_map in *.
    + injection E as -> ->. exists (Node x). split; [exact Ht|now left].
    + destruct H as (c & Hc & H). rewrite Forall_forall in IH. exists c. split; [exact Hc|]. destruct c; [|now apply IH..]. destruct (IH _ Hc H).
  - intros [E|H]; [discriminate|]. rewrite in_flat_map in *. destruct H as (c & Hc & H). rewrite Forall_forall in IH. exists c. split; [exact Hc|now apply IH].
Qed.
Lemma watched_mgr cs x : watched cs x -> In x (mgr_ids cs).
Proof.
  intros (o & t & S & <- & [G|[->|(g & ->)]]).
  - apply sits_ids in S. destruct S as (c & Hc & H). apply in_flat_map. exists c. split; [exact Hc|right]. now apply group_inner.
  - inversion S; subst. apply in_flat_map. exists t. split; [assumption|now left].
  - inversion S as [|o0 g0 ds t0 S0 Ht|]; subst. apply sits_ids in S0. destruct S0 as (c & Hc & H). apply in_flat_map. exists c. split; [exact Hc|right]. eapply region_inner; eassumption.
Qed.
Lemma unwatched_free cs x : NoDup (flat_map ids cs) -> unwatched cs x -> ~ In x (mgr_ids cs).
Proof.
  intros N (g & S) H. apply mgr_low in H. inversion S as [| |o0 g0 ds t0 S0 Ht]; subst. apply sits_ids in S0. destruct S0 as (c & Hc & H1).
  assert (F : In x (flat_map forg cs)) by (apply in_flat_map; exists c; split; [exact Hc|eapply plain_forg; eassumption]).
  assert (P : Permutation (flat_map ids cs) (flat_map low cs ++ flat_map forg cs)) by (apply perm_flat, Forall_forall; intros t _; apply ids_perm).
  apply (Permutation_NoDup P) in N. eapply app_nodup_disj; eassumption.
Qed.
Lemma mut_iff mg cs e : is_mut mg cs e = true <-> in_mutable mg cs e.
Proof.
  unfold is_mut, in_mutable. rewrite existsb_exists. split.
  - intros (t & Ht & H). destruct t as [y|g ds|y ds]; try discriminate. apply andb_prop in H. destruct H as [Hm H]. apply existsb_exists in H. destruct H as (d & Hd & H). apply Nat.eqb_eq in H.
    rewrite in_flat_map in Ht. destruct (subs_sits cs (Plain g ds) Ht) as (o & S). exists g, d. split; [exact Hm|]. split; [|exact H]. eapply sits_group; eassumption.
  - intros (g & t & Hm & S & <-). inversion S; subst. exists (Plain g ds). split; [rewrite in_flat_map; eapply sits_ids; eassumption|].
    rewrite Hm. cbn [andb]. apply existsb_exists. exists t. split; [assumption|apply Nat.eqb_refl].
Qed.
Lemma group_iff cs e : is_group cs e = true <-> exists o t, sits cs o t /\ grouped t /\ eid t = e.
Proof.
  unfold is_group. rewrite existsb_exists. split.
  - intros (t & Ht & H). rewrite in_flat_map in Ht. destruct (subs_sits cs t Ht) as (o & S). exists o, t. split; [exact S|]. destruct t; [discriminate| |]; (split; [exact I|now apply Nat.eqb_eq in H]).
  - intros (o & t & S & G & <-). exists t. split; [rewrite in_flat_map; eapply sits_ids; eassumption|]. destruct t; [contradiction| |]; apply Nat.eqb_refl.
Qed.

(** * The flags *)
Lemma run_elems ask p p' v : pipe_run ask p = (p', v) -> pp_init p' = pp_init p /\ pp_flag p' = pp_flag p /\ c_elems (pp_cfg p') = c_elems (pp_cfg p).
Proof.
  intro E. destruct (pp_init p) eqn:Ei.
  - destruct (pipe_run_spec ask _ _ _ E Ei) as (H1 & H2 & _ & H3 & _). auto.
  - unfold pipe_run in E. rewrite Ei in E. injection E as <- _. auto.
Qed.
Lemma runs_elems ask k : forall p p' rs, pipe_history ask (repeat ORun k) p = (p', rs) -> pp_flag p' = pp_flag p /\ c_elems (pp_cfg p') = c_elems (pp_cfg p).
Proof.
  induction k as [|k IH]; intros p p' rs E; cbn in E; [now injection E as <- _|].
  destruct (pipe_run ask p) as [p1 v] eqn:E1. destruct (pipe_history ask (repeat ORun k) p1) as [p2 vs] eqn:E2. injection E as <- _.
  destruct (IH _ _ _ E2) as [H1 H2]. destruct (run_elems _ _ _ _ E1) as (_ & H3 & H4). split; congruence.
Qed.
Definition new_cfg (o : pop) : option cfg := match o with OConfig _ c => Some c | _ => None end.
(** A step changes the flags of managed elements only. *)
Lemma step_flags ask p o p1 v : pipe_step ask p o = (p1, v) ->
  (forall x, ~ In x (mgr_ids (c_elems (pp_cfg p))) -> pp_flag p1 x = pp_flag p x) /\
  (c_elems (pp_cfg p1) = c_elems (pp_cfg p) \/ exists k c, o = OConfig k c /\ pp_cfg p1 = c).
Proof.
  intro E.
  assert (PR : forall n q u, pipe_process ask n p = (q, u) -> (forall x, ~ In x (mgr_ids (c_elems (pp_cfg p))) -> pp_flag q x = pp_flag p x) /\ c_elems (pp_cfg q) = c_elems (pp_cfg p)).
  { intros n q u Eq. destruct (C24_process ask n p q u Eq) as [(oi & Ei & _)|(a & k & b & rs & Ei & _ & Hh & _ & H)].
    - destruct (pipe_init_spec ask _ _ _ Ei) as (Hc & Hf & _). split; [|now rewrite Hc]. intros x Hx. destruct (Hf x) as [?|(_ & ? & _)]; [easy|tauto].
    - destruct (pipe_init_spec ask _ _ _ Ei) as (Hc & Hf & _). destruct (runs_elems _ _ _ _ _ Hh) as [F2 C2].
      assert (B : (forall x, ~ In x (mgr_ids (c_elems (pp_cfg p))) -> pp_flag b x = pp_flag p x) /\ c_elems (pp_cfg b) = c_elems (pp_cfg p)).
      { rewrite F2, C2, Hc. split; [|easy]. intros x Hx. destruct (Hf x) as [?|(_ & ? & _)]; [easy|tauto]. }
      destruct B as [B1 B2]. destruct H as [(rs0 & x & _ & _ & _ & ->)|(ss & d & _ & _ & Ed & _)]; [easy|].
      destruct (pipe_destroy_spec ask _ _ _ Ed) as (Hc2 & Hf2 & _). rewrite Hc2. split; [|exact B2]. intros x Hx. rewrite <- (B1 x Hx). destruct (Hf2 x) as [?|(_ & Y)]; [easy|]. rewrite B2 in Y. tauto. }
  destruct o; cbn [pipe_step] in E.
  - destruct (pipe_init_spec ask _ _ _ E) as (Hc & Hf & _). split; [|left; now rewrite Hc]. intros x Hx. destruct (Hf x) as [?|(_ & ? & _)]; [easy|tauto].
  - destruct (run_elems _ _ _ _ E) as (_ & H2 & H3). rewrite H2. auto.
  - destruct (pipe_destroy_spec ask _ _ _ E) as (Hc & Hf & _). split; [|left; now rewrite Hc]. intros x Hx. destruct (Hf x) as [?|(_ & ?)]; [easy|tauto].
  - destruct (PR _ _ _ E). auto.
  - destruct (pp_init p); [destruct (run_elems _ _ _ _ E) as (_ & H2 & H3); rewrite H2; auto|injection E as <- _; auto].
  - destruct (pp_init p); [injection E as <- _; auto|]. destruct (PR _ _ _ E). auto.
  - destruct (pp_init p); injection E as <- _; auto.
  - destruct (pp_init p); injection E as <- _; auto.
  - destruct (pp_init p); injection E as <- _; auto.
  - destruct (pp_init p); [injection E as <- _; auto|]. destruct (extends (pp_cfg p) c); injection E as <- _; [|auto]. split; [auto|right; now exists o, c].
  - injection E as <- _. auto.
Qed.
(** While the pipeline is initialised, every call but destroy leaves flags and elements alone. *)
Lemma step_live ask p o p1 v : pp_init p = true -> o <> ODestroy -> pipe_step ask p o = (p1, v) ->
  pp_init p1 = true /\ pp_flag p1 = pp_flag p /\ c_elems (pp_cfg p1) = c_elems (pp_cfg p).
Proof.
  intros Hi Hd E.
  assert (IN : forall q u, pipe_init ask p = (q, u) -> q = p) by (intros q u Eq; destruct (pipe_init_spec ask _ _ _ Eq) as (_ & _ & _ & _ & H & _); now apply H).
  destruct o; cbn [pipe_step] in E; rewrite ?Hi in E; try (injection E as <- _; auto; fail).
  - apply IN in E. subst. auto.
  - destruct (run_elems _ _ _ _ E) as (H1 & H2 & H3). rewrite H1. auto.
  - congruence.
  - assert (X : p1 = p). { unfold pipe_process in E. unfold pipe_init in E. rewrite Hi in E. cbn in E. now injection E as <- _. } subst. auto.
  - destruct (run_elems _ _ _ _ E) as (H1 & H2 & H3). rewrite H1. auto.
Qed.

(** * Single calls *)
Lemma set_refused e mut grp k c : meant_fixed (mut = true) c -> turned_down (snd (set_call e true mut grp k c)) /\ fst (set_call e true mut grp k c) = k.
Proof.
  destruct k. destruct c; cbn; try (intros _; split; [try exact I; vm_compute; reflexivity|reflexivity]); try easy.
  all: intro H; destruct mut; try (now destruct H); split; cbn; try exact I; try reflexivity; vm_compute; reflexivity.
Qed.
Lemma set_same e mut grp k c : same_but_mutable k (fst (set_call e true mut grp k c)) /\ (mut = false -> same_settings k (fst (set_call e true mut grp k c))).
Proof.
  assert (R : same_but_mutable k k) by (repeat split).
  assert (R2 : same_settings k k) by (repeat split).
  destruct k. destruct c; cbn; try (split; [exact R|intros _; exact R2]).
  - destruct mut; cbn; [|split; [exact R|intros _; exact R2]]. destruct (_ && _); split; try discriminate; repeat split.
  - destruct mut; cbn; [|split; [exact R|intros _; exact R2]]. split; try discriminate; repeat split.
  - destruct mut; cbn; [|split; [exact R|intros _; exact R2]]. split; try discriminate; repeat split.
Qed.

(** * Histories *)
Definition no_destroy (o : lop) : Prop := o <> LPipe ODestroy.
Lemma same_but_trans a b c : same_but_mutable a b -> same_but_mutable b c -> same_but_mutable a c.
Proof. unfold same_but_mutable. intuition congruence. Qed.
Lemma same_trans a b c : same_settings a b -> same_settings b c -> same_settings a c.
Proof. unfold same_settings. intros (H & ? & ? & ?) (H' & ? & ? & ?). split; [eapply same_but_trans; eassumption|intuition congruence]. Qed.
Lemma lrun_live ask mg h : forall s s2 vs, Forall no_destroy h -> pp_init (l_p s) = true -> lrun ask mg s h = (s2, vs) ->
  pp_init (l_p s2) = true /\ pp_flag (l_p s2) = pp_flag (l_p s) /\ c_elems (pp_cfg (l_p s2)) = c_elems (pp_cfg (l_p s)) /\
  forall e, pp_flag (l_p s) e = true -> same_but_mutable (l_conf s e) (l_conf s2 e) /\ (~ in_mutable mg (c_elems (pp_cfg (l_p s))) e -> same_settings (l_conf s e) (l_conf s2 e)).
Proof.
  induction h as [|o h IH]; intros s s2 vs F Hi E; cbn [lrun] in E.
  - injection E as <- _. repeat split; auto.
  - destruct (lstep ask mg s o) as [s1 v] eqn:E1. destruct (lrun ask mg s1 h) as [s3 ws] eqn:E2. injection E as <- _. inversion F; subst.
    assert (ST : pp_init (l_p s1) = true /\ pp_flag (l_p s1) = pp_flag (l_p s) /\ c_elems (pp_cfg (l_p s1)) = c_elems (pp_cfg (l_p s)) /\
      forall e, pp_flag (l_p s) e = true -> same_but_mutable (l_conf s e) (l_conf s1 e) /\ (~ in_mutable mg (c_elems (pp_cfg (l_p s))) e -> same_settings (l_conf s e) (l_conf s1 e))).
    { destruct o as [o|e c|e r]; cbn [lstep] in E1.
      - destruct (pipe_step ask (l_p s) o) as [p w] eqn:Ep. injection E1 as <- _. cbn [l_p l_conf].
        assert (ND : o <> ODestroy) by (intros ->; now apply H1). destruct (step_live ask _ _ _ _ Hi ND Ep) as (A & B & C). repeat split; auto.
      - destruct (set_call e _ _ _ _ c) as [k w] eqn:Ek. injection E1 as <- _. cbn [l_p l_conf]. split; [exact Hi|]. split; [easy|]. split; [easy|].
        intros x Hx. destruct (Nat.eq_dec x e) as [EX|N].
        + subst x. rewrite upd_same. rewrite Hx in Ek.
          match type of Ek with set_call _ _ ?m ?g ?k0 _ = _ => destruct (set_same e m g k0 c) as [A B]; rewrite Ek in A, B; cbn [fst] in A, B; split; [exact A|]; intro Nm; apply B; destruct m eqn:Em; [|reflexivity] end.
          exfalso. apply Nm. now apply mut_iff.
        + rewrite upd_other by congruence. repeat split.
      - injection E1 as <- _. repeat split; auto. }
    destruct ST as (A & B & C & D). destruct (IH _ _ _ H2 A E2) as (A' & B' & C' & D'). rewrite B', C', B, C. repeat split; auto; try easy.
    all: destruct (D e H) as [X Y]; rewrite B, C in D'; destruct (D' e H) as [X' Y']; try (eapply same_but_trans; eassumption).
    all: specialize (Y H0); specialize (Y' H0); pose proof (same_trans _ _ _ Y Y') as Z; unfold same_settings, same_but_mutable in Z; tauto.
Qed.
(** Configurations in which [x] stays a node of a group. *)
Definition keeps (x : nat) (c : cfg) : Prop := NoDup (all_ids c) /\ unwatched (c_elems c) x.
Definition keeps_op (x : nat) (o : lop) : Prop := match o with LPipe (OConfig _ c) => keeps x c | _ => True end.
Lemma lrun_unwatched ask mg x h : forall s s2 vs, Forall (keeps_op x) h -> NoDup (flat_map ids (c_elems (pp_cfg (l_p s)))) -> unwatched (c_elems (pp_cfg (l_p s))) x ->
  pp_flag (l_p s) x = false -> lrun ask mg s h = (s2, vs) -> pp_flag (l_p s2) x = false.
Proof.
  induction h as [|o h IH]; intros s s2 vs F N U Hx E; cbn [lrun] in E; [now injection E as <- _|].
  destruct (lstep ask mg s o) as [s1 v] eqn:E1. destruct (lrun ask mg s1 h) as [s3 ws] eqn:E2. injection E as <- _. inversion F; subst.
  destruct o as [o|e c|e r]; cbn [lstep] in E1.
  - destruct (pipe_step ask (l_p s) o) as [p w] eqn:Ep. injection E1 as <- _. destruct (step_flags ask _ _ _ _ Ep) as [A B].
    assert (X : pp_flag p x = false) by (rewrite A; [exact Hx|now apply unwatched_free]).
    destruct B as [B|(k & c & -> & B)].
    + refine (IH _ _ _ H2 _ _ _ E2); cbn [l_p]; rewrite ?B; assumption.
    + destruct H1 as [H1 H3]. refine (IH _ _ _ H2 _ _ _ E2); cbn [l_p]; rewrite ?B; assumption.
  - destruct (set_call e _ _ _ _ c) as [k w] eqn:Ek. injection E1 as <- _. refine (IH _ _ _ H2 _ _ _ E2); assumption.
  - injection E1 as <- _. refine (IH _ _ _ H2 _ _ _ E2); assumption.
Qed.
