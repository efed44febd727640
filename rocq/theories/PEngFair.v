(** Nobody who is not resting can be kept from acting: fair rounds of parallelRunAll on the pool always exist *)
From Verif Require Import PEngSpec DynProofs DynInv DynTerm ParProofs PoolLive.
From Verif Require Import PoolProofs BindProofs EngPoolProofs EngLiveProofs EngFairProofs PEngProofs PEngLive.
From Coq Require Import Lia Permutation.
Local Open Scope nat_scope.
Local Open Scope list_scope.

Lemma remove_none {A} : forall i (l : list A), nth_error l i = None -> remove_nth i l = l.
Proof. induction i as [|i IH]; intros [|y l] En; cbn in *; try discriminate; trivial. now rewrite IH. Qed.
Definition ywho_ok (k : cfg) (s : peng) : Prop := NoDup (pe_who s) /\ forall w, In w (pe_who s) -> place k (pe_p s) w.
Lemma place_more k p p' w : p_nsec p <= p_nsec p' -> place k p w -> place k p' w.
Proof. destruct w; cbn [place]; lia. Qed.
Lemma executes_place k p g w t : pinv k p -> executes p g = Some (w, t) -> place k p w /\ match g with LPrim i _ => w = Prim i | LSec j _ => w = Sec j | _ => False end.
Proof.
  intros PI Ex. destruct g; try discriminate; cbn [executes] in Ex.
  - destruct (p_pt p i) as [| | |[|x r]|] eqn:EP; try discriminate. injection Ex as <- <-. split; [|reflexivity]. cbn [place]. destruct (Nat.lt_ge_cases i (c_def k)) as [H|H]; [exact H|]. destruct (iv_prim _ _ PI i H). congruence.
  - destruct (p_st p j) as [| | | |[|x r]|] eqn:EP; try discriminate. injection Ex as <- <-. split; [|reflexivity]. cbn [place]. destruct (Nat.lt_ge_cases j (p_nsec p)) as [H|H]; [exact H|]. rewrite (iv_sec _ _ PI j H) in EP. discriminate.
Qed.
Lemma ywho_step c k s l s' : pinv k (pe_p s) -> ywho_ok k s -> ystep c k s l = Some s' -> ywho_ok k s'.
Proof.
  intros PI [N P] E. destruct l as [l busy a|g].
  - destruct (ystep_eng c k s l busy a s' E) as (NP & d & Ed & [[Eg ->]|(r & g & p & -> & Eg & Ep & ->)]).
    + assert (W : who_after l (pe_s s) d (pe_who s) = pe_who s \/ exists i, who_after l (pe_s s) d (pe_who s) = remove_nth i (pe_who s)) by (destruct l as [| |i r| |]; cbn [who_after]; auto; destruct (Nat.ltb _ _); auto; right; now exists i).
      unfold ywho_ok. cbn [pe_who pe_p]. destruct W as [->|(i & ->)]; [now split|]. split; [|intros w Hw; apply P; now apply in_remove_nth in Hw].
      destruct (nth_error (pe_who s) i) as [x|] eqn:En; [|now rewrite remove_none]. apply nth_error_remove in En. apply (Permutation_NoDup En) in N. now inversion N.
    + destruct (nsec_step k _ _ _ Ep) as (M & _). split; [exact N|]. intros w Hw. cbn [pe_p]. apply (place_more k (pe_p s) p w M). now apply P.
  - destruct (ystep_pool c k s g s' E) as (_ & IN & _ & p & Ep & [(w & t & d & Ex & Em & Ed & ->)|(NE & ->)]); destruct (nsec_step k _ _ _ Ep) as (M & _).
    + destruct (executes_place k _ g w t PI Ex) as [W1 W2]. pose proof (not_inside _ w g W2 IN) as W3. split; cbn [pe_who pe_p].
      * apply (Permutation_NoDup (l := w :: pe_who s)); [apply Permutation_cons_append|]. now constructor.
      * intros v Hv. apply (place_more k (pe_p s) p v M). apply in_app_iff in Hv as [Hv|[<-|[]]]; [now apply P|exact W1].
    + split; [exact N|]. intros v Hv. apply (place_more k (pe_p s) p v M). now apply P.
Qed.
Lemma ywho_run c k : forall ls s s', pinv k (pe_p s) -> ywho_ok k s -> (exists hp, yinv c k hp s) -> yrun c k s ls = Some s' -> ywho_ok k s'.
Proof.
  induction ls as [|l ls IH]; intros s s' P W (hp & I) E; cbn [yrun] in E; [now injection E as <-|]. destruct (ystep c k s l) as [s1|] eqn:E1; [|discriminate].
  pose proof (ystep_inv c k hp s l s1 I E1) as I1. apply (IH s1 s'); trivial.
  - destruct (pool_run_inv k _ _ _ (pinv_new k) (yi_p _ _ _ _ I1)) as [X _]. exact X.
  - exact (ywho_step c k s l s1 P W E1).
  - eexists. exact I1.
Qed.
(** Someone who is not resting *)
Definition ybusy (k : cfg) (s : peng) (a : actor) : Prop :=
  match a with
  | Caller => p_main (pe_s s) <> QAsleep /\ p_main (pe_s s) <> QIdle
  | InPool w => In w (pe_who s) \/ match w with Prim i => i < c_def k | Sec j => p_st (pe_p s) j <> SExit end
  end.
Lemma who_dec (w : thr) who : In w who \/ ~ In w who.
Proof.
  destruct (existsb (thr_eqb w) who) eqn:X; [left; apply existsb_exists in X as (v & V & Hv); now apply thr_eqb_eq in Hv as <-|right; intros Hw].
  assert (existsb (thr_eqb w) who = true) by (apply existsb_exists; exists w; split; [exact Hw|apply thr_eqb_refl]). congruence.
Qed.
Lemma ybusy_or k s a : ybusy k s a \/ yresting k s a.
Proof.
  destruct a as [|w]; cbn [ybusy yresting]; [destruct (p_main (pe_s s)); auto; left; split; discriminate|]. destruct (who_dec w (pe_who s)) as [H|N]; [now left; left|].
  destruct w as [i|j]; [destruct (Nat.lt_ge_cases i (c_def k)); [left; now right|right; now split]|]. destruct (p_st (pe_p s) j); try (left; right; discriminate). right. now split.
Qed.
Lemma ybusy_step c k s l s' a : ygood c k s -> yat_work l = true -> ystep c k s l = Some s' -> yacts s l a = false -> ybusy k s a -> ybusy k s' a.
Proof.
  intros G A E N B. destruct a as [|w]; cbn [ybusy] in *.
  - destruct B as [B1 B2]. destruct l as [l b x|g].
    + destruct (ystep_eng c k s l b x s' E) as (NP & d & Ed & [[Eg ->]|(r & g & p & -> & Eg & Ep & ->)]); [|discriminate]. destruct l as [|r|i r|i|]; try discriminate. cbn [pe_s]. cbn [pstep] in Ed.
      destruct (nth_error (p_act (pe_s s)) i) as [o|]; [|discriminate]. destruct (pop_enabled _ o); [|discriminate]. destruct (pop_sem _ _ _ _ _ _) as [[[[num st] tr] nx] nt]. injection Ed as <-. cbn [p_main].
      destruct nt, (p_main (pe_s s)); cbn; split; congruence.
    + destruct (ystep_pool c k s g s' E) as (_ & IN & _ & p & Ep & [(w & t & d & Ex & Em & Ed & ->)|(NE & ->)]); cbn [pe_s]; [|now split]. cbn [pstep] in Ed. destruct (Nat.ltb _ _); [|discriminate]. destruct (nth_error _ _); [|discriminate]. injection Ed as <-. now split.
  - assert (ST : forall j, w = Sec j -> p_st (pe_p s') j = p_st (pe_p s) j).
    { intros j ->. destruct l as [l b x|g].
      - destruct (ystep_eng c k s l b x s' E) as (NP & d & Ed & [[Eg ->]|(r & g & p & -> & Eg & Ep & ->)]); [reflexivity|]. cbn [pe_p]. destruct (next_push c _ _ _ _ Eg) as (e & l & q & _ & En & ->).
        destruct (call_todo c k _ q b x p (nth_error_In _ _ En) (yg_p _ _ _ G) Ep) as (_ & _ & _ & _ & _ & _ & S & _). now rewrite S.
      - destruct (ystep_pool c k s g s' E) as (_ & IN & _ & p & Ep & HC). assert (EP : pe_p s' = p) by (destruct HC as [(w & t & d & _ & _ & _ & ->)|(_ & ->)]; reflexivity). rewrite EP.
        destruct (nsec_step k _ _ _ Ep) as (_ & _ & X). apply X; [destruct g; try discriminate; reflexivity|]. intros ok ->. cbn [yacts] in N. now rewrite Nat.eqb_refl in N. }
    destruct B as [B|B]; [|right; destruct w as [i|j]; [exact B|rewrite (ST j eq_refl); exact B]]. left. destruct l as [l b x|g].
    + destruct (ystep_eng c k s l b x s' E) as (NP & d & Ed & [[Eg ->]|(r & g & p & -> & Eg & Ep & ->)]); [|exact B]. cbn [pe_who]. destruct l as [|r|i r|i|]; cbn [who_after]; trivial. destruct (Nat.ltb _ _); [|exact B].
      cbn [yacts] in N. destruct (nth_error (pe_who s) i) as [v|] eqn:En; [|now rewrite remove_none]. pose proof (nth_error_remove _ _ _ En) as Pm. apply (Permutation_in _ Pm) in B as [B|B]; [|exact B]. subst v. now rewrite thr_eqb_refl in N.
    + destruct (ystep_pool c k s g s' E) as (_ & IN & _ & p & Ep & [(v & t & d & Ex & Em & Ed & ->)|(NE & ->)]); cbn [pe_who]; [|exact B]. apply in_or_app. now left.
Qed.
Lemma yacted_app c k a l2 : forall l1 s s1, yrun c k s l1 = Some s1 -> yacted c k s (l1 ++ l2) a = yacted c k s l1 a || yacted c k s1 l2 a.
Proof.
  induction l1 as [|l l1 IH]; intros s s1 E; cbn [yrun yacted app] in *; [injection E as <-; reflexivity|]. destruct (ystep c k s l) as [s2|]; [|discriminate]. rewrite (IH s2 s1 E). now rewrite Bool.orb_assoc.
Qed.
Lemma yrun_cat c k l1 : forall s s1 l2, yrun c k s l1 = Some s1 -> yrun c k s (l1 ++ l2) = yrun c k s1 l2.
Proof. induction l1 as [|l l1 IH]; intros s s1 l2 E; cbn [yrun app] in *; [now injection E as <-|]. destruct (ystep c k s l); [|discriminate]. now apply IH. Qed.
Definition ygo (c : pecfg) (k : cfg) (s : peng) : Prop := ygood c k s /\ ywho_ok k s.
Lemma ygo_run c k : okc c -> forall ls s s', ygo c k s -> forallb yat_work ls = true -> yrun c k s ls = Some s' -> ygo c k s'.
Proof.
  intros K. induction ls as [|l ls IH]; intros s s' [G W] A E; cbn [yrun forallb] in *; [injection E as <-; now split|]. apply Bool.andb_true_iff in A as [A1 A2].
  destruct (ystep c k s l) as [s1|] eqn:E1; [|discriminate]. apply (IH s1 s'); trivial. split; [apply (ygood_step c k s l s1 K G); [unfold ymay; now rewrite A1|exact E1]|exact (ywho_step c k s l s1 (yg_p _ _ _ G) W E1)].
Qed.
Lemma ybusy_run c k a : okc c -> forall ls s s', ygo c k s -> forallb yat_work ls = true -> yrun c k s ls = Some s' -> yacted c k s ls a = false -> ybusy k s a -> ybusy k s' a.
Proof.
  intros K. induction ls as [|l ls IH]; intros s s' G A E N B; cbn [yrun forallb yacted] in *; [now injection E as <-|]. apply Bool.andb_true_iff in A as [A1 A2]. apply Bool.orb_false_iff in N as [N1 N2].
  destruct (ystep c k s l) as [s1|] eqn:E1; [|discriminate]. apply (IH s1 s'); trivial.
  - apply (ygo_run c k K [l] s s1 G); cbn [forallb yrun]; [now rewrite A1|now rewrite E1].
  - exact (ybusy_step c k s l s1 a (proj1 G) A1 E1 N1 B).
Qed.
(** The next call of the engine is possible *)
Lemma call_ok c k s b : 0 < c_max k -> ygood c k s -> b = false -> forall e l, p_main (pe_s s) = QPush (e :: l) -> exists a g p, next_call c (p_main (pe_s s)) b a = Some g /\ pool_step k (pe_p s) g = Next p.
Proof.
  intros M G -> e l Em. destruct (yg_e _ _ _ G) as (hp & GE). pose proof (yi_m _ _ _ _ GE) as C. rewrite Em in C. destruct C as (pre & o & C1 & C2 & C3). destruct (next_nth c e l pre C1) as (q & G1 & G2 & G3 & G4). rewrite G3 in C2.
  destruct (yg_r _ _ _ G) as (R1 & R2 & R3 & R4). rewrite Em. cbn [next_call]. cbn [length] in G4. cbn [length]. rewrite G4, G1. cbn [option_map]. destruct q as [|t idx busy x|u t tid en lk|u t prio x|u n|u|i ok|j ok|i|j|j|]; try contradiction; cbn [proto] in C2.
  - destruct C2 as [-> _]. assert (RD : pool_ready k (pe_p s)).
    { split; [exact R1|]. split; [exact R2|]. split; [|exact R4]. intros i. destruct (p_lk (pe_p s) i) as [u|] eqn:L; [|reflexivity]. pose proof (R3 i u L). subst u. apply C3 in L as [L _]. discriminate. }
    destruct (submit_ok k (pe_p s) t idx RD M) as (a & p & Ep). exists a. eexists. exists p. split; [reflexivity|exact Ep].
  - exists 0. destruct C2 as (i & -> & -> & C2). cbn [with_choice]. eexists. assert (X : exists p, pool_step k (pe_p s) (LTid (pc_me c) t (Z.of_nat i) en lk) = Next p); [|destruct X as (p & X); exists p; split; [reflexivity|exact X]].
    cbn [pool_step]. destruct ((0 <=? Z.of_nat i)%Z && (Z.of_nat i <? Z.of_nat (c_def k))%Z) eqn:B; [|now eexists]. rewrite R1. cbn [negb]. rewrite Nat2Z.id. destruct lk.
    + destruct C2 as (-> & -> & _). cbn [andb]. destruct (p_lk (pe_p s) i) as [u|] eqn:L; [|now eexists]. pose proof (R3 i u L). subst u. apply C3 in L as [L _]. discriminate.
    + destruct C2 as (-> & _). rewrite Bool.andb_false_r. assert (L : p_lk (pe_p s) i = Some (pc_me c)) by (apply C3; split; [reflexivity|]; apply Bool.andb_true_iff in B as [_ B]; apply Z.ltb_lt in B; lia). rewrite L, Nat.eqb_refl. now eexists.
Qed.
Lemma yeng_ok c k s l d : l <> LRun -> (forall i, l <> LPick i) -> ygood c k s -> 0 < c_max k -> pstep (wide (pc_c c) (pe_s s)) (pe_s s) l = Some d -> exists a s', ystep c k s (YEng l false a) = Some s' /\ pe_s s' = d.
Proof.
  intros NR NP G M D. destruct l as [|r|i r|i|]; try congruence; cbn [ystep]; rewrite D.
  - destruct (p_main (pe_s s)) as [| | |[|e l]|n| | | | | |] eqn:Em; try (exists 0; eexists; split; reflexivity). destruct (call_ok c k s false M G eq_refl e l Em) as (a & g & p & X & Y). rewrite Em in X. exists a. rewrite X, Y. eexists. split; reflexivity.
  - exists 0. eexists. split; reflexivity.
  - exists 0. eexists. split; reflexivity.
Qed.
(** The caller of run gives the mutex of the engine back *)
Lemma yunlocks c k s : exists ls s', forallb yat_work ls = true /\ yrun c k s ls = Some s' /\ pe_who s' = pe_who s /\ p_act (pe_s s') = p_act (pe_s s) /\ p_holds (p_main (pe_s s')) = false.
Proof.
  assert (ST : forall s0, p_holds (p_main (pe_s s0)) = true -> exists s1, ystep c k s0 (YEng (LMain st_default) false 0) = Some s1 /\ pe_who s1 = pe_who s0 /\ p_act (pe_s s1) = p_act (pe_s s0) /\
     (p_holds (p_main (pe_s s1)) = false \/ match p_main (pe_s s0) with QEvalNum => p_main (pe_s s1) = QEvalErr | QEvalErr => p_main (pe_s s1) = QPreSleep | _ => False end)).
  { intros s0 H. cbn [ystep pstep]. destruct (p_main (pe_s s0)) eqn:Em; try discriminate; cbn [next_call]; (eexists; split; [reflexivity|]); cbn [pe_who pe_s p_act p_main]; (split; [reflexivity|]); (split; [reflexivity|]).
    - destruct (Nat.leb _ _); [now left|now right].
    - destruct (isErr _); [now left|now right].
    - now left. }
  assert (P3 : forall s0, p_main (pe_s s0) = QPreSleep -> exists ls s', forallb yat_work ls = true /\ yrun c k s0 ls = Some s' /\ pe_who s' = pe_who s0 /\ p_act (pe_s s') = p_act (pe_s s0) /\ p_holds (p_main (pe_s s')) = false).
  { intros s0 Em. destruct (ST s0) as (s1 & E & W & D & M); [now rewrite Em|]. rewrite Em in M. exists [YEng (LMain st_default) false 0], s1. cbn [forallb andb yrun yat_work]. rewrite E. destruct M as [M|[]]. auto. }
  assert (P2 : forall s0, p_main (pe_s s0) = QEvalErr -> exists ls s', forallb yat_work ls = true /\ yrun c k s0 ls = Some s' /\ pe_who s' = pe_who s0 /\ p_act (pe_s s') = p_act (pe_s s0) /\ p_holds (p_main (pe_s s')) = false).
  { intros s0 Em. destruct (ST s0) as (s1 & E & W & D & M); [now rewrite Em|]. rewrite Em in M. destruct M as [M|M].
    - exists [YEng (LMain st_default) false 0], s1. cbn [forallb andb yrun yat_work]. rewrite E. auto.
    - destruct (P3 s1 M) as (ls & s2 & A & R & W2 & D2 & H2). exists (YEng (LMain st_default) false 0 :: ls), s2. cbn [forallb andb yrun yat_work]. rewrite E. repeat split; trivial; congruence. }
  destruct (p_main (pe_s s)) eqn:Em; try (exists [], s; rewrite Em; now repeat split); [|now apply P2|now apply P3].
  destruct (ST s) as (s1 & E & W & D & M); [now rewrite Em|]. rewrite Em in M. destruct M as [M|M].
  - exists [YEng (LMain st_default) false 0], s1. cbn [forallb andb yrun yat_work]. rewrite E. auto.
  - destruct (P2 s1 M) as (ls & s2 & A & R & W2 & D2 & H2). exists (YEng (LMain st_default) false 0 :: ls), s2. cbn [forallb andb yrun yat_work]. rewrite E. repeat split; trivial; congruence.
Qed.
(** A thread of the pool that is not inside an element is never hindered by the engine *)
Lemma pool_free c k hp s g p : yinv c k hp s -> pool_step k (pe_p s) g = Next p -> inside (pe_who s) g = false -> (forall t, In t (given1 g) -> ~ In t (p_els (pc_c c))) -> (forall t tid en lk, g <> LTid (pc_me c) t tid en lk) ->
  exists s', ystep c k s (YPool g) = Some s' /\ pe_p s' = p.
Proof.
  intros I E IN HG NT. cbn [ystep]. assert (X : existsb (fun t => memb t (p_els (pc_c c))) (given1 g) = false).
  { destruct (existsb _ _) eqn:X; [|reflexivity]. apply existsb_exists in X as (t & T1 & T2). apply memb_in in T2. now destruct (HG t T1). }
  assert (Y : match g with LTid u _ _ _ _ => Nat.eqb u (pc_me c) | _ => false end = false) by (destruct g as [| |u t tid en lk| | | | | | | | |]; trivial; destruct (Nat.eqb_spec u (pc_me c)) as [->|]; trivial; exfalso; eapply NT; reflexivity).
  rewrite X, IN, Y, E. cbn [orb]. destruct (executes (pe_p s) g) as [[w t]|] eqn:Ex; [|eexists; split; reflexivity]. destruct (memb t (p_els (pc_c c))) eqn:Em; [|eexists; split; reflexivity]. apply memb_in in Em.
  pose proof (index_of_nth t _ (ytaken c k hp s g p w t I E Ex Em)) as N. cbn [pstep wide p_workers]. destruct (Nat.ltb_spec (length (p_act (pe_s s))) (S (length (p_act (pe_s s))))) as [_|F]; [|lia]. rewrite N. eexists. split; reflexivity.
Qed.
Lemma ycan_act c k s a : okc c -> 0 < c_max k -> ygo c k s -> ybusy k s a -> exists ls s', forallb yat_work ls = true /\ yrun c k s ls = Some s' /\ yacted c k s ls a = true.
Proof.
  intros K M (G & WN & WP) B. destruct a as [|w]; cbn [ybusy] in B.
  - destruct B as [B1 B2]. assert (D : exists d, pstep (wide (pc_c c) (pe_s s)) (pe_s s) (LMain st_default) = Some d) by (cbn [pstep]; destruct (p_main (pe_s s)) as [| | |[|e l]|[|n]| | | | | |]; try congruence; now eexists).
    destruct D as (d & D). destruct (yeng_ok c k s (LMain st_default) d ltac:(discriminate) ltac:(discriminate) G M D) as (a & s' & E & _). exists [YEng (LMain st_default) false a], s'. cbn [forallb andb yrun yacted yacts yat_work orb]. now rewrite E.
  - destruct (who_dec w (pe_who s)) as [IN|NI].
    + destruct (yunlocks c k s) as (ls & s1 & A & E & W1 & D1 & HM). pose proof (ygo_run c k K ls s s1 (conj G (conj WN WP)) A E) as (G1 & _).
      rewrite <- W1 in IN. apply In_nth_error in IN as (i & IN). destruct (yg_e _ _ _ G1) as (hp & I1). pose proof (yi_l _ _ _ _ I1) as TL.
      destruct (nth_error (p_act (pe_s s1)) i) as [o|] eqn:En; [|apply nth_error_None in En; assert (i < length (pe_who s1)) by (apply nth_error_Some; congruence); lia].
      assert (D : exists d, pstep (wide (pc_c c) (pe_s s1)) (pe_s s1) (LWork i st_default) = Some d).
      { cbn [pstep]. rewrite En. replace (pop_enabled (p_main (pe_s s1)) o) with true by (destruct o; cbn [pop_enabled]; trivial; now rewrite HM). destruct (pop_sem _ _ _ _ o st_default) as [[[[num st] tr] nx] nt]. now eexists. }
      destruct D as (d & D). destruct (yeng_ok c k s1 (LWork i st_default) d ltac:(discriminate) ltac:(discriminate) G1 M D) as (a & s2 & E2 & _).
      exists (ls ++ [YEng (LWork i st_default) false a]), s2. split; [rewrite forallb_app, A; reflexivity|]. split; [rewrite (yrun_cat c k _ _ _ _ E); cbn [yrun]; now rewrite E2|].
      rewrite (yacted_app c k _ _ ls s s1 E). cbn [yacted yacts]. rewrite IN, thr_eqb_refl. apply Bool.orb_true_r.
    + destruct B as [B|B]; [contradiction|].
      assert (X : exists g p, pool_step k (pe_p s) g = Next p /\ lucky g = true /\ given1 g = [] /\ inside (pe_who s) g = false /\ yacts s (YPool g) (InPool w) = true).
      { assert (IS : forall g, match g with LPrim i _ => w = Prim i | LSec j _ => w = Sec j | _ => False end -> inside (pe_who s) g = false).
        { intros g Hg. destruct (inside (pe_who s) g) eqn:IG; trivial. exfalso. apply NI. destruct g; try contradiction; subst w; cbn [inside] in IG; apply existsb_exists in IG as (v & V & Hv); now apply thr_eqb_eq in Hv as <-. }
        destruct (yg_r _ _ _ G) as (R1 & R2 & _). destruct w as [i|j].
        - exists (LPrim i true). destruct (lv_p _ _ (yg_l _ _ _ G) R1 i B) as [L1 L2]. assert (Y : exists p, prim_step k (pe_p s) i true = Next p).
          { unfold prim_step. destruct (p_pt (pe_p s) i) as [| |[|n]|[|x r]|]; try congruence; try (now eexists).
            - destruct (p_lk (pe_p s) i), (own_take k (p_wsq (pe_p s) i)) as [[|x a] b]; now eexists.
            - destruct (nth_error (targets k i) n) as [m|]; [destruct (p_lk (pe_p s) m), (steal_take k (p_wsq (pe_p s) m)) as [[|x a] b]; now eexists|].
              destruct (pool_take k (p_q (pe_p s))) as [[|x a] b]; now eexists.
            - specialize (R2 i B). specialize (L2 eq_refl). congruence. }
          destruct Y as (p & Y). exists p. split; [exact Y|]. split; [reflexivity|]. split; [reflexivity|]. split; [now apply IS|]. cbn. apply Nat.eqb_refl.
        - exists (LSec j true). assert (Y : exists p, sec_step k (pe_p s) j true = Next p).
          { unfold sec_step. destruct (p_st (pe_p s) j) as [| | | |[|x r]|]; try congruence; try (now eexists).
            - destruct (pool_take k (p_q (pe_p s))) as [[|x a] b]; now eexists.
            - destruct (prio_take (p_prio (pe_p s))) as [[|x a] b]; now eexists.
            - destruct (p_q (pe_p s)); now eexists. }
          destruct Y as (p & Y). exists p. split; [exact Y|]. split; [reflexivity|]. split; [reflexivity|]. split; [now apply IS|]. cbn. apply Nat.eqb_refl. }
      destruct X as (g & p & E & L & GV & IG & AC). destruct (yg_e _ _ _ G) as (hp & I1). destruct (pool_free c k hp s g p I1 E IG) as (s' & E' & _); [rewrite GV; easy|intros; destruct g; discriminate|].
      exists [YPool g], s'. split; [destruct g; try discriminate; cbn in L |- *; now rewrite L|]. split; [cbn [yrun]; now rewrite E'|]. cbn [yacted]. now rewrite AC.
Qed.
Lemma yround_of c k : okc c -> 0 < c_max k -> forall L s, ygo c k s -> exists ls s', forallb yat_work ls = true /\ yrun c k s ls = Some s' /\ forall a, In a L -> yresting k s a \/ yacted c k s ls a = true.
Proof.
  intros K M. induction L as [|a L IH]; intros s G; [exists [], s; now repeat split|]. destruct (IH s G) as (ls & s1 & A & E & F).
  destruct (ybusy_or k s a) as [B|B]; [|exists ls, s1; split; [exact A|]; split; [exact E|]; intros b [<-|Hb]; [now left|now apply F]].
  destruct (yacted c k s ls a) eqn:AC; [exists ls, s1; split; [exact A|]; split; [exact E|]; intros b [<-|Hb]; [now right|now apply F]|].
  pose proof (ybusy_run c k a K ls s s1 G A E AC B) as B1. destruct (ycan_act c k s1 a K M (ygo_run c k K ls s s1 G A E) B1) as (l2 & s2 & A2 & E2 & AC2).
  exists (ls ++ l2), s2. split; [now rewrite forallb_app, A, A2|]. split; [now rewrite (yrun_cat c k _ _ _ _ E)|]. intros b Hb. rewrite (yacted_app c k b l2 ls s s1 E).
  destruct Hb as [<-|Hb]; [right; rewrite AC2; apply Bool.orb_true_r|]. destruct (F b Hb) as [X|X]; [now left|right; now rewrite X].
Qed.
Lemma yrounds_exist c k : okc c -> 0 < c_max k -> forall n s, ygo c k s -> exists s', yrounds c k s n 0 s'.
Proof.
  intros K M. induction n as [|n IH]; intros s G; [exists s; constructor|].
  destruct (yround_of c k K M (Caller :: map InPool (pe_who s) ++ map (fun i => InPool (Prim i)) (seq 0 (c_def k)) ++ map (fun j => InPool (Sec j)) (seq 0 (p_nsec (pe_p s)))) s G) as (ls & s1 & A & E & F).
  destruct (IH s1 (ygo_run c k K ls s s1 G A E)) as (s2 & R). exists s2. destruct (work_may ls A) as [A1 A0]. rewrite <- A0, <- (Nat.add_0_r (yhits ls)). refine (yr_next c k s ls s1 n 0 s2 E (conj A1 _) R). intros a. destruct (ybusy_or k s a) as [B|B]; [|now left]. apply F.
  destruct a as [|w]; [now left|right]. cbn [ybusy] in B. apply in_or_app. destruct B as [B|B]; [left; now apply in_map|right]. apply in_or_app. destruct w as [i|j]; [left|right].
  - apply (in_map (fun i => InPool (Prim i))), in_seq. lia.
  - apply (in_map (fun j => InPool (Sec j))), in_seq. destruct (Nat.lt_ge_cases j (p_nsec (pe_p s))) as [Z|Z]; [lia|]. destruct G as (G & _). now rewrite (iv_sec _ _ (yg_p _ _ _ G) j Z) in B.
Qed.
