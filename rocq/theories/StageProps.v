(** Property theorems on stages. *)
From Verif Require Import StageModel.
From Coq Require Import ZArith Lia.
Local Open Scope nat_scope.
Local Open Scope list_scope.

(** Number of entries in a schedule. *)
Fixpoint entered (ls : list slabel) : nat := match ls with [] => 0 | SEnter _ :: r => S (entered r) | _ :: r => entered r end.
(** The threshold in force: one when a smaller one was asked for. *)
Definition thr_of (z : Z) : nat := Nat.max 1 (Z.to_nat z).
Local Arguments thr_of : simpl never.
(** The thread is in the stage, having entered as number e (from zero). *)
Definition inside (s : stg) (t e : nat) : Prop := sg_th s t = SSleep e \/ sg_th s t = SWoken e.

Lemma sg_run_app s a b : sg_run s (a ++ b) = match sg_run s a with Some s' => sg_run s' b | None => None end.
Proof. revert s. induction a as [|l r IH]; intros s; cbn; [easy|]. destruct (sg_step s l); [apply IH|easy]. Qed.
Lemma entered_app a b : entered (a ++ b) = entered a + entered b.
Proof. induction a as [|[]]; cbn; lia. Qed.
Lemma thr_pos z : 1 <= thr_of z.
Proof. unfold thr_of. lia. Qed.
Lemma thr_le z c : 1 <= c -> (z <=? Z.of_nat c)%Z = (thr_of z <=? c).
Proof. intros H. unfold thr_of. apply Bool.eq_true_iff_eq. rewrite Z.leb_le, Nat.leb_le. lia. Qed.

Record sginv (thr : Z) (ls : list slabel) (s : stg) : Prop := mk_sgi
  { si_thr : sg_thr s = thr;
    si_ent : sg_ent s = entered ls;
    si_div : sg_ent s = sg_launch s * thr_of thr + sg_cur s;
    si_cur : sg_cur s < thr_of thr;
    si_th : forall t e, inside s t e -> e < sg_ent s;
    si_asleep : forall t e, sg_th s t = SSleep e -> sg_launch s * thr_of thr <= e \/ 1 <= sg_cur s }.
Lemma sginv_all thr : forall ls s, sg_run (sg_new thr) ls = Some s -> sginv thr ls s.
Proof.
  induction ls as [|l ls IH] using rev_ind; intros s E.
  - injection E as <-. pose proof (thr_pos thr). constructor; cbn; try easy; try lia. intros t e [H1|H1]; discriminate.
  - rewrite sg_run_app in E. destruct (sg_run (sg_new thr) ls) as [s0|] eqn:E0; [|discriminate]. specialize (IH s0 eq_refl). destruct IH as [I1 I2 I3 I4 I5 I6].
    cbn [sg_run] in E. destruct (sg_step s0 l) as [s1|] eqn:E1; [|discriminate]. injection E as <-. rewrite <- I1 in *.
    destruct l as [t|t|t]; cbn [sg_step] in E1.
    + destruct (sg_th s0 t) eqn:Et; try discriminate. rewrite (thr_le (sg_thr s0) (S (sg_cur s0))) in E1 by lia.
      destruct (Nat.leb_spec (thr_of (sg_thr s0)) (S (sg_cur s0))) as [Hl|Hl].
      * injection E1 as <-. constructor; cbn [sg_thr sg_ent sg_launch sg_cur sg_th inside]; rewrite ?entered_app; cbn [entered].
        -- easy.
        -- lia.
        -- lia.
        -- pose proof (thr_pos (sg_thr s0)). lia.
        -- intros u e H. assert (Hi : inside s0 u e). { unfold inside in *. cbn [sg_th] in H. destruct (sg_th s0 u); cbn [wake] in H; destruct H as [H|H]; try discriminate; injection H as <-; auto. } specialize (I5 u e Hi). lia.
        -- intros u e. destruct (sg_th s0 u); discriminate.
      * unfold sg_open in E1. cbn [sg_cur sg_thr Nat.eqb orb] in E1. rewrite (thr_le (sg_thr s0) (S (sg_cur s0))) in E1 by lia.
        destruct (Nat.leb_spec (thr_of (sg_thr s0)) (S (sg_cur s0))) as [Hl'|_]; [lia|]. injection E1 as <-.
        constructor; cbn [sg_thr sg_ent sg_launch sg_cur sg_th inside]; rewrite ?entered_app; cbn [entered]; try easy; try lia.
        -- intros u e [H|H]; cbn [sg_th] in H; unfold upd in H; destruct (Nat.eqb u t); try discriminate; try (injection H as <-; lia).
           ++ assert (e < sg_ent s0) by (apply (I5 u); now left). lia.
           ++ assert (e < sg_ent s0) by (apply (I5 u); now right). lia.
    + destruct (sg_th s0 t) as [|e0|e0] eqn:Et; try discriminate. injection E1 as <-.
      constructor; cbn [sg_thr sg_ent sg_launch sg_cur sg_th inside]; rewrite ?entered_app, ?Nat.add_0_r; cbn [entered]; try easy; try lia.
      * intros u e H. apply (I5 u). unfold inside in *. cbn [sg_th] in H. unfold upd in H. destruct (Nat.eqb_spec u t) as [->|]; [|easy]. rewrite Et. right.
        destruct (sg_open s0); destruct H as [H|H]; try discriminate. now injection H as <-.
      * intros u e H. unfold upd in H. destruct (Nat.eqb u t).
        -- right. unfold sg_open in H. destruct (Nat.eqb_spec (sg_cur s0) 0); [discriminate|lia].
        -- now apply (I6 u).
    + destruct (sg_th s0 t) as [|e0|e0] eqn:Et; try discriminate. injection E1 as <-.
      constructor; cbn [sg_thr sg_ent sg_launch sg_cur sg_th inside]; rewrite ?entered_app, ?Nat.add_0_r; cbn [entered]; try easy; try lia.
      * intros u e H. apply (I5 u). unfold inside in *. cbn [sg_th] in H. unfold upd in H. destruct (Nat.eqb_spec u t) as [->|]; [|easy]. rewrite Et. left.
        destruct H as [H|H]; try discriminate. now injection H as <-.
      * intros u e H. unfold upd in H. destruct (Nat.eqb u t); [discriminate|]. now apply (I6 u).
Qed.

(** C32: the callback has run exactly once per threshold entries, whatever the schedule and however many threads. *)
Theorem C32_launches : forall thr ls s, sg_run (sg_new thr) ls = Some s -> sg_launch s = entered ls / thr_of thr.
Proof.
  intros thr ls s E. destruct (sginv_all thr ls s E) as [I1 I2 I3 I4 I5 I6]. rewrite <- I2.
  apply (Nat.div_unique (sg_ent s) (thr_of thr) (sg_launch s) (sg_cur s)); [easy|]. lia.
Qed.
(** A thread leaves - at once, or after waiting - only when the threshold of its round was reached: the thread that entered as
    number e (from zero) leaves only after all entries of the block of threshold entries that contains e. *)
Theorem C32_barrier : forall thr ls s, sg_run (sg_new thr) ls = Some s ->
  (forall t s', sg_step s (SEnter t) = Some s' -> sg_th s' t = SOut -> S (entered ls) = (entered ls / thr_of thr + 1) * thr_of thr) /\
  (forall t s', sg_step s (SEnter t) = Some s' -> sg_th s' t <> SOut -> inside s' t (entered ls)) /\
  (forall t e s', sg_step s (SResume t) = Some s' -> inside s t e -> sg_th s' t = SOut -> (e / thr_of thr + 1) * thr_of thr <= entered ls).
Proof.
  intros thr ls s E. pose proof (C32_launches thr ls s E) as HL. destruct (sginv_all thr ls s E) as [I1 I2 I3 I4 I5 I6]. split; [|split].
  - intros t s' E1 Ho. cbn [sg_step] in E1. destruct (sg_th s t) eqn:Et; try discriminate. rewrite I1, (thr_le thr (S (sg_cur s))) in E1 by lia.
    destruct (Nat.leb_spec (thr_of thr) (S (sg_cur s))) as [Hl|Hl].
    + rewrite <- HL, <- I2. lia.
    + unfold sg_open in E1. cbn [sg_cur sg_thr Nat.eqb orb] in E1. rewrite (thr_le thr (S (sg_cur s))) in E1 by lia.
      destruct (Nat.leb_spec (thr_of thr) (S (sg_cur s))) as [Hl'|_]; [lia|]. injection E1 as <-. cbn in Ho. rewrite upd_same in Ho. discriminate.
  - intros t s' E1 Ho. cbn [sg_step] in E1. destruct (sg_th s t) eqn:Et; try discriminate. destruct (sg_thr s <=? _)%Z.
    + injection E1 as <-. cbn in Ho. rewrite Et in Ho. easy.
    + destruct (sg_open _); injection E1 as <-; cbn in Ho; [congruence|]. left. cbn. rewrite upd_same. now rewrite I2.
  - intros t e s' E1 Hi Ho. cbn [sg_step] in E1. assert (He : e < sg_ent s) by now apply (I5 t).
    destruct (sg_th s t) as [|e0|e0] eqn:Et; try discriminate. destruct Hi as [Hi|Hi]; rewrite Et in Hi; [discriminate|]. injection Hi as ->.
    injection E1 as <-. cbn in Ho. rewrite upd_same in Ho. unfold sg_open in Ho. pose proof (thr_pos thr). rewrite I1 in Ho. destruct (Nat.eqb_spec (sg_cur s) 0) as [Hc|Hc].
    + rewrite <- I2. assert (e / thr_of thr < sg_launch s); [|nia]. apply Nat.div_lt_upper_bound; lia.
    + rewrite (thr_le thr (sg_cur s)) in Ho by lia. cbn [orb] in Ho. destruct (Nat.leb_spec (thr_of thr) (sg_cur s)); [lia|discriminate].
Qed.
(** A thread that never entered is never inside, and a launch lets nobody else in: only its own calls move a thread. *)
Theorem C32_own_steps : forall s l s' t, sg_step s l = Some s' -> sg_th s t = SOut -> l <> SEnter t -> sg_th s' t = SOut.
Proof.
  intros s l s' t E Ho Hl. destruct l as [u|u|u]; cbn [sg_step] in E.
  - assert (u <> t) by congruence. destruct (sg_th s u); try discriminate. destruct (_ <=? _)%Z; [injection E as <-; cbn; now rewrite Ho|].
    destruct (sg_open _); injection E as <-; cbn; [easy|]. now rewrite upd_other by congruence.
  - destruct (sg_th s u) eqn:Eu; try discriminate. injection E as <-. cbn. now rewrite upd_other by congruence.
  - destruct (sg_th s u) eqn:Eu; try discriminate. injection E as <-. cbn. now rewrite upd_other by congruence.
Qed.
Example C32_case : exists s, sg_run (sg_new 3) [SEnter 0; SEnter 1; SSpurious 0; SResume 0; SEnter 2; SResume 1] = Some s /\
  sg_launch s = 1 /\ sg_th s 0 = SWoken 0 /\ sg_th s 1 = SOut /\ sg_th s 2 = SOut.
Proof. eexists. split; [reflexivity|]. now vm_compute. Qed.
Print Assumptions C32_launches. Print Assumptions C32_barrier. Print Assumptions C32_own_steps.

(** C64, refuted: a thread whose round was launched need not leave. Threshold 2, threads 0 and 1: thread 1 launches the round
    and enters again before thread 0 has the mutex; both now wait, although the round of thread 0 is over, and no step of the two
    threads, spurious wake-ups included, lets either of them out. *)
Theorem C64_leaves_refuted : exists s,
  sg_run (sg_new 2) [SEnter 0; SEnter 1; SEnter 1; SResume 0] = Some s /\ sg_launch s = 1 /\
  forall ls s', (forall l, In l ls -> exists t, t < 2 /\ (l = SEnter t \/ l = SResume t \/ l = SSpurious t)) -> sg_run s ls = Some s' ->
    inside s' 0 0 /\ inside s' 1 2.
Proof.
  eexists. split; [reflexivity|]. split; [reflexivity|].
  assert (H : forall ls s s', sg_thr s = 2%Z -> sg_cur s = 1 -> inside s 0 0 -> inside s 1 2 ->
    (forall l, In l ls -> exists t, t < 2 /\ (l = SEnter t \/ l = SResume t \/ l = SSpurious t)) -> sg_run s ls = Some s' -> inside s' 0 0 /\ inside s' 1 2).
  { induction ls as [|l r IH]; intros s s' H1 H2 H3 H4 Hl E; cbn in E; [injection E as <-; easy|].
    destruct (sg_step s l) as [s1|] eqn:E1; [|discriminate].
    assert (Hop : sg_open s = false) by (unfold sg_open; now rewrite H1, H2).
    assert (Hs1 : sg_thr s1 = 2%Z /\ sg_cur s1 = 1 /\ inside s1 0 0 /\ inside s1 1 2).
    { destruct (Hl l (or_introl eq_refl)) as [t [Ht [->|[->| ->]]]]; cbn [sg_step] in E1.
      - assert (t = 0 \/ t = 1) as [->| ->] by lia; [destruct H3 as [H|H]|destruct H4 as [H|H]]; rewrite H in E1; discriminate.
      - rewrite Hop in E1. destruct (sg_th s t) as [|e|e] eqn:Et; try discriminate. injection E1 as <-. do 2 (split; [easy|]). unfold inside in *. cbn.
        assert (t = 0 \/ t = 1) as [->| ->] by lia; rewrite ?upd_same, ?upd_other by easy; rewrite Et in *; intuition congruence.
      - destruct (sg_th s t) as [|e|e] eqn:Et; try discriminate. injection E1 as <-. do 2 (split; [easy|]). unfold inside in *. cbn.
        assert (t = 0 \/ t = 1) as [->| ->] by lia; rewrite ?upd_same, ?upd_other by easy; rewrite Et in *; intuition congruence. }
    destruct Hs1 as [A [B [C D]]]. apply (IH s1 s' A B C D); [|easy]. intros x Hx. apply Hl. now right. }
  intros ls s' Hl E. refine (H ls _ s' _ _ _ _ Hl E); [reflexivity|reflexivity|left; reflexivity|left; reflexivity].
Qed.
(** C64, what holds: as long as nobody enters while a thread of a launched round is still inside, no thread of a launched round
    sleeps, and each of them leaves when it next gets the mutex. *)
Definition waits_for_leavers (s : stg) (l : slabel) (thr : Z) : Prop :=
  match l with SEnter _ => forall t e, inside s t e -> sg_launch s * thr_of thr <= e | _ => True end.
Fixpoint polite (thr : Z) (s : stg) (ls : list slabel) : Prop :=
  match ls with [] => True | l :: r => waits_for_leavers s l thr /\ match sg_step s l with Some s' => polite thr s' r | None => True end end.
Theorem C64_leaves_partial : forall thr ls s, sg_run (sg_new thr) ls = Some s -> polite thr (sg_new thr) ls ->
  forall t e, inside s t e -> (e / thr_of thr + 1) * thr_of thr <= entered ls ->
  sg_th s t = SWoken e /\ exists s', sg_step s (SResume t) = Some s' /\ sg_th s' t = SOut.
Proof.
  intros thr ls s E HP.
  assert (H : forall t e, inside s t e -> e < sg_launch s * thr_of thr -> sg_th s t = SWoken e /\ sg_cur s = 0).
  { revert s E HP. induction ls as [|l ls IH] using rev_ind; intros s E HP.
    - injection E as <-. intros t e [H|H]; discriminate.
    - rewrite sg_run_app in E. destruct (sg_run (sg_new thr) ls) as [s0|] eqn:E0; [|discriminate].
      assert (HP2 : polite thr (sg_new thr) ls /\ waits_for_leavers s0 l thr).
      { clear -HP E0. revert HP E0. generalize (sg_new thr). induction ls as [|x r IHr]; intros s HP E0; cbn in *.
        - injection E0 as ->. tauto.
        - destruct (sg_step s x) as [s1|]; [|discriminate]. destruct HP as [HP1 HP2]. destruct (IHr s1 HP2 E0). tauto. }
      destruct HP2 as [HP1 HP2]. specialize (IH s0 eq_refl HP1). pose proof (sginv_all thr ls s0 E0) as [I1 I2 I3 I4 I5 I6].
      cbn [sg_run] in E. destruct (sg_step s0 l) as [s1|] eqn:E1; [|discriminate]. injection E as <-. destruct l as [u|u|u]; cbn [sg_step] in E1.
      + destruct (sg_th s0 u) eqn:Eu; try discriminate. destruct (_ <=? _)%Z.
        * injection E1 as <-. intros t e Hi _. cbn. split; [|easy]. unfold inside in Hi. cbn in Hi. destruct (sg_th s0 t); destruct Hi as [Hi|Hi]; cbn in *; congruence.
        * destruct (sg_open _) eqn:Ho; injection E1 as <-; intros t e Hi He; cbn in He.
          -- specialize (HP2 t e). unfold inside in *. cbn in Hi. specialize (HP2 Hi). lia.
          -- unfold inside in Hi. cbn in Hi. unfold upd in Hi. destruct (Nat.eqb_spec t u) as [->|].
             ++ destruct Hi as [Hi|Hi]; [|discriminate]. injection Hi as <-. lia.
             ++ specialize (HP2 t e Hi). lia.
      + destruct (sg_th s0 u) as [|e0|e0] eqn:Eu; try discriminate. injection E1 as <-. intros t e Hi He. unfold inside in Hi. cbn in *. unfold upd in *.
        destruct (Nat.eqb_spec t u) as [->|].
        * destruct (sg_open s0) eqn:Ho; [destruct Hi; discriminate|]. destruct Hi as [Hi|Hi]; [|discriminate]. injection Hi as ->.
          destruct (IH u e (or_intror Eu) He) as [_ Hc]. unfold sg_open in Ho. rewrite Hc in Ho. discriminate.
        * now apply (IH t e).
      + destruct (sg_th s0 u) as [|e0|e0] eqn:Eu; try discriminate. injection E1 as <-. intros t e Hi He. unfold inside in Hi. cbn in *. unfold upd in *.
        destruct (Nat.eqb_spec t u) as [->|].
        * destruct Hi as [Hi|Hi]; [discriminate|]. injection Hi as ->. split; [easy|]. now destruct (IH u e (or_introl Eu) He).
        * now apply (IH t e). }
  intros t e Hi He. destruct (sginv_all thr ls s E) as [I1 I2 I3 I4 I5 I6]. pose proof (thr_pos thr).
  assert (Hlt : e < sg_launch s * thr_of thr).
  { pose proof (Nat.mod_upper_bound e (thr_of thr)) as Hm. pose proof (Nat.div_mod_eq e (thr_of thr)) as Hd.
    assert (e / thr_of thr + 1 <= sg_launch s); [|nia]. assert ((e / thr_of thr + 1) * thr_of thr < (sg_launch s + 1) * thr_of thr) by lia. nia. }
  destruct (H t e Hi Hlt) as [Hw Hc]. split; [easy|]. cbn [sg_step]. rewrite Hw. eexists. split; [reflexivity|]. cbn. rewrite upd_same. unfold sg_open. now rewrite Hc.
Qed.
(** In particular when no more than threshold entries happen at all, every one of them leaves once the last has come. *)
Example C64_case : let ls := [SEnter 0; SEnter 1; SEnter 2] in polite 3 (sg_new 3) ls /\
  exists s, sg_run (sg_new 3) ls = Some s /\ inside s 1 1 /\ (1 / thr_of 3 + 1) * thr_of 3 <= entered ls.
Proof.
  split.
  - cbn. do 3 (split; [lia|]). easy.
  - eexists. split; [reflexivity|]. split; [right; reflexivity|]. vm_compute. lia.
Qed.
Print Assumptions C64_leaves_refuted. Print Assumptions C64_leaves_partial.

(** C65, refuted: creating a stage under a key in use is answered OK but changes nothing, so the new threshold never applies. *)
Theorem C65_create_refuted : forall m k a b, m k = Some a -> a <> b -> snd (sm_create k b m) = true /\ sm_wait k (fst (sm_create k b m)) = Some a.
Proof. intros m k a b E _. unfold sm_create, sm_wait. cbn. now rewrite E. Qed.
(** C65, what holds: creating under a fresh key makes that stage with that threshold, no other key changes, unknown keys are
    refused, and the Python entry point refuses a key in use. *)
Theorem C65_create_partial : forall m k a, 
  (m k = None -> sm_wait k (fst (sm_create k a m)) = Some a /\ snd (sm_create k a m) = true /\ sm_create_py k a m = sm_create k a m) /\
  (forall b, m k = Some b -> sm_create_py k a m = (m, false)) /\
  (forall k', k' <> k -> fst (sm_create k a m) k' = m k' /\ fst (sm_create_py k a m) k' = m k').
Proof.
  intros m k a. unfold sm_create, sm_create_py, sm_wait. split; [|split].
  - intros E. rewrite E. cbn. now rewrite upd_same.
  - intros b E. now rewrite E.
  - intros k' Hk. destruct (m k); cbn; [easy|]. now rewrite upd_other.
Qed.
Example C65_case : sm_wait 1 (fst (sm_create 1 5 (fst (sm_create 1 3 (fun _ => None))))) = Some 3%Z.
Proof. reflexivity. Qed.
Print Assumptions C65_create_refuted. Print Assumptions C65_create_partial.
