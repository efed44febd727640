From Verif Require Import GraphSpec ShareSpec DynInv DynProofs DynTerm PoolProofs PoolLive BindProofs BindProps EngPoolProofs EngPoolProps EngLiveProofs EngFairProofs EngLiveProps ShareProofs.
From Coq Require Import Lia.
Local Open Scope nat_scope.
Local Open Scope list_scope.

(** * Rounds of everyone exist *)
Definition ycalm (l : ylabel) : bool := yat_work l && match l with YDyn _ (LMain r) _ _ | YDyn _ (LWork _ r) _ _ => isOK r | _ => true end.
Definition ybusy (n : nat) (k : cfg) (s : many) (a : yactor) : Prop :=
  match a with
  | YCaller q => q < n /\ d_main (y_d s q) <> MAsleep /\ d_main (y_d s q) <> MIdle
  | YThread w => (exists q, q < n /\ In w (y_w s q)) \/ match w with Prim i => i < c_def k | Sec j => p_st (y_p s) j <> SExit end
  end.
Lemma in_dec_who n s w : (exists q, q < n /\ In w (y_w s q)) \/ forall q, q < n -> ~ In w (y_w s q).
Proof.
  destruct (existsb (fun q => existsb (thr_eqb w) (y_w s q)) (seq 0 n)) eqn:X.
  - left. apply existsb_exists in X as (q & Hq & X). apply existsb_exists in X as (v & V & Hv). apply thr_eqb_eq in Hv as <-. exists q. apply in_seq in Hq. split; [lia|exact V].
  - right. intros q Hq H. assert (F : existsb (fun q => existsb (thr_eqb w) (y_w s q)) (seq 0 n) = true); [|congruence]. apply existsb_exists. exists q. split; [apply in_seq; lia|]. apply existsb_exists. exists w. split; [exact H|apply thr_eqb_refl].
Qed.
Lemma ybusy_or n k s a : ybusy n k s a \/ yresting n k s a.
Proof.
  destruct a as [q|w]; cbn [ybusy yresting].
  - destruct (Nat.lt_ge_cases q n) as [H|H]; [|right; now left]. destruct (d_main (y_d s q)); auto; left; (split; [exact H|split; discriminate]).
  - destruct (in_dec_who n s w) as [H|H]; [left; now left|]. destruct w as [i|j]; [destruct (Nat.lt_ge_cases i (c_def k)); [left; now right|right; now split]|].
    destruct (p_st (y_p s) j); try (left; right; discriminate). right. now split.
Qed.
Lemma ycalm_work ls : forallb ycalm ls = true -> forallb yat_work ls = true.
Proof. intros H. apply forallb_forall. intros l Hl. apply (proj1 (forallb_forall _ _) H) in Hl. now apply Bool.andb_true_iff in Hl. Qed.
Lemma ycalm_may ls : forallb ycalm ls = true -> forallb ymay ls = true.
Proof. intros H. apply forallb_forall. intros l Hl. apply (proj1 (forallb_forall _ _) (ycalm_work _ H)) in Hl. unfold ymay. now rewrite Hl. Qed.
Lemma ycalm_hits ls : forallb ycalm ls = true -> yhits ls = 0.
Proof.
  induction ls as [|l ls IH]; intros H; cbn [forallb] in H; [reflexivity|]. apply Bool.andb_true_iff in H as [H1 H2]. unfold yhits. cbn [filter]. replace (ydisturbs l) with false; [exact (IH H2)|].
  apply Bool.andb_true_iff in H1 as [H1 _]. destruct l as [q []|[]]; try discriminate H1; trivial; cbn in *; now subst.
Qed.
(** Whoever is busy stays so until they act *)
Lemma busy_proj n cs k q s l s' a : separate n cs -> q < n -> all_closed n cs s -> yat_work l = true -> ystep n cs k s l = Some s' -> yacts s l (seen q a) = false ->
  busy k (view s q) a -> busy k (view s' q) a.
Proof.
  intros SE Hq C A E N B. destruct (proj_step n cs k q s l s' SE Hq C E) as (P & _). destruct (foreign q l) eqn:F.
  - destruct l as [r l b x|l]; [|discriminate]. cbn [foreign] in F. cbn [project1] in P. apply Bool.negb_true_iff in F. rewrite F in P.
    destruct (gives (y_d s r) l) as [t|]; [|cbn [erun] in P; assert (V : view s' q = view s q) by congruence; rewrite V; exact B]. cbn [erun] in P. destruct (estep (cs q) k (view s q) _) as [e|] eqn:Ee; [|discriminate]. injection P as P. rewrite P in Ee. clear P.
    cbn [estep] in Ee. destruct (existsb _ _ || _); [discriminate|]. destruct (pool_step k (e_p (view s q)) _) as [| |p] eqn:Ep; try discriminate. cbn [executes] in Ee. assert (V : view s' q = mkE (e_d (view s q)) p (e_who (view s q))) by congruence. rewrite V.
    destruct a as [|w]; cbn [busy e_d e_who e_p view] in *; [exact B|]. destruct B as [B|B]; [now left|right]. destruct w as [i|j]; [exact B|]. destruct (nsec_step k _ _ _ Ep) as (_ & _ & X). rewrite X; [exact B|reflexivity|discriminate].
  - destruct (proj_acts n cs k q s l s' a SE Hq C E F) as (e & P1 & X). rewrite P1 in P. cbn [erun] in P. destruct (estep (cs q) k (view s q) e) as [e'|] eqn:Ee; [|discriminate]. injection P as ->.
    apply (busy_step (cs q) k (view s q) e (view s' q) a); trivial; [|now rewrite X]. destruct l as [r l b x|l]; cbn [project1 foreign] in *; [apply Bool.negb_false_iff in F; rewrite F in P1|]; injection P1 as <-; exact A.
Qed.
Lemma ybusy_step n cs k s l s' a : separate n cs -> 0 < n -> all_closed n cs s -> yat_work l = true -> ystep n cs k s l = Some s' -> yacts s l a = false -> ybusy n k s a -> ybusy n k s' a.
Proof.
  intros SE H0 C A E N B. destruct a as [q|w]; cbn [ybusy] in *.
  - destruct B as [Hq B]. split; [exact Hq|]. exact (busy_proj n cs k q s l s' Caller SE Hq C A E N B).
  - assert (K : forall q, q < n -> busy k (view s q) (InPool w) -> (exists q0, q0 < n /\ In w (y_w s' q0)) \/ match w with Prim i => i < c_def k | Sec j => p_st (y_p s') j <> SExit end).
    { intros q Hq X. apply (busy_proj n cs k q s l s' (InPool w) SE Hq C A E N) in X. destruct X as [X|X]; [left; now exists q|right; exact X]. }
    destruct B as [(q & Hq & B)|B]; [apply (K q Hq); now left|apply (K 0 H0); now right].
Qed.
Lemma ybusy_run n cs k a : separate n cs -> 0 < n -> forall ls s s', all_closed n cs s -> forallb yat_work ls = true -> yrun n cs k s ls = Some s' -> yacted n cs k s ls a = false -> ybusy n k s a -> ybusy n k s' a.
Proof.
  intros SE H0. induction ls as [|l ls IH]; intros s s' C A E N B; cbn [yrun forallb yacted] in *; [now injection E as <-|]. apply Bool.andb_true_iff in A as [A1 A2]. apply Bool.orb_false_iff in N as [N1 N2].
  destruct (ystep n cs k s l) as [s1|] eqn:E1; [|discriminate]. apply (IH s1 s' (closed_ystep n cs k s l s1 SE C E1) A2 E N2). exact (ybusy_step n cs k s l s1 a SE H0 C A1 E1 N1 B).
Qed.
Lemma yacted_app n cs k a l2 : forall l1 s s1, yrun n cs k s l1 = Some s1 -> yacted n cs k s (l1 ++ l2) a = yacted n cs k s l1 a || yacted n cs k s1 l2 a.
Proof. induction l1 as [|l l1 IH]; intros s s1 E; cbn [yrun app yacted] in *; [now injection E as <-|]. destruct (ystep n cs k s l) as [s2|]; [|discriminate]. now rewrite (IH s2 s1 E), Bool.orb_assoc. Qed.
(** Everything that is needed to go on *)
Lemma go_may c k s l s' : wf (c_g c) -> acyclic (c_g c) -> batches_ok k -> ready_to_go c k s -> may_happen l = true -> estep c k s l = Some s' -> ready_to_go c k s'.
Proof.
  intros Hwf Ha HB RG A E. unfold may_happen in A. destruct (at_work l) eqn:W; [exact (go_step c k s l s' Hwf Ha RG W E)|]. cbn [orb] in A. destruct RG as (G & WH & (h & H) & N).
  split; [exact (proj1 (disturbed c k s l s' Hwf Ha HB G A E))|]. split; [exact (who_step c k s l s' (go_p _ _ _ G) WH E)|]. split; [exists (h ++ [l]); rewrite (erun_cat c k h _ _ _ H); cbn [erun]; now rewrite E|].
  assert (X : p_nsec (e_p s') = p_nsec (e_p s)); [|lia]. destruct l as [[] b x|g]; try discriminate.
  - destruct (edyn_parts _ _ _ _ _ _ _ E) as (_ & _ & P). cbn [gives] in P. now rewrite P.
  - assert (WK : works g = true) by (destruct g; try discriminate; reflexivity). cbn [estep] in E. destruct (existsb _ _ || _); [discriminate|]. destruct (pool_step k (e_p s) g) as [| |p] eqn:Ep; try discriminate.
    assert (EP : e_p s' = p) by (destruct (executes (e_p s) g) as [[v t]|]; [destruct (memb t _); [destruct (dstep c (e_d s) _); [|discriminate]|]|]; now injection E as <-). rewrite EP.
    destruct (nsec_step k _ _ _ Ep) as (_ & X & _). now apply X.
Qed.
Lemma go_may_run c k : wf (c_g c) -> acyclic (c_g c) -> batches_ok k -> forall ls s s', ready_to_go c k s -> forallb may_happen ls = true -> erun c k s ls = Some s' -> ready_to_go c k s'.
Proof.
  intros Hwf Ha HB. induction ls as [|l ls IH]; intros s s' G A E; cbn [erun forallb] in *; [now injection E as <-|]. apply Bool.andb_true_iff in A as [A1 A2].
  destruct (estep c k s l) as [s1|] eqn:E1; [|discriminate]. exact (IH s1 s' (go_may c k s l s1 Hwf Ha HB G A1 E1) A2 E).
Qed.
Definition all_ready (n : nat) (cs : nat -> dcfg) (k : cfg) (s : many) : Prop := all_closed n cs s /\ forall q, q < n -> ready_to_go (cs q) k (view s q).
Lemma all_ready_run n cs k : separate n cs -> batches_ok k -> forall ls s s', all_ready n cs k s -> forallb ymay ls = true -> yrun n cs k s ls = Some s' -> all_ready n cs k s'.
Proof.
  intros SE HB ls s s' [C R] A E. assert (X : forall q, q < n -> ready_to_go (cs q) k (view s' q) /\ all_closed n cs s').
  { intros q Hq. destruct (proj_run n cs k q SE Hq ls s s' C E) as (P & _ & _ & C'). destruct (proj1 SE q Hq) as [Hwf Ha]. split; [|exact C'].
    apply (go_may_run (cs q) k Hwf Ha HB _ _ _ (R q Hq)) with (2 := P). now apply proj_run_may. }
  split; [|intros q Hq; now apply X]. intros q Hq. destruct (X q Hq) as [_ Y]. now apply Y.
Qed.
Definition all_fine (n : nat) (s : many) : Prop := forall q, q < n -> no_error (trace (y_d s q)).
Lemma fine_step n cs k s l s' : all_fine n s -> ycalm l = true -> ystep n cs k s l = Some s' -> all_fine n s'.
Proof.
  intros F A E r Hr. destruct l as [q l busy a|l]; cbn [ystep] in E.
  - destruct (Nat.ltb q n) eqn:Hq; [|discriminate]. destruct (estep (cs q) k (view s q) (EDyn l busy a)) as [e|] eqn:Ee; [|discriminate]. injection E as <-. destruct (edyn_parts _ _ _ _ _ _ _ Ee) as (D & _). cbn [view e_d] in D.
    cbn [put_view y_d]. destruct (Nat.eq_dec r q) as [->|N]; [rewrite upd_same|rewrite upd_other by exact N; now apply F]. apply (calm_dstep (cs q) (y_d s q) l (e_d e)); [|now apply F|exact D].
    destruct l; try discriminate A; exact A.
  - destruct (_ || _); [discriminate|]. destruct (pool_step k (y_p s) l) as [| |p']; try discriminate. destruct (executes (y_p s) l) as [[w t]|]; [|injection E as <-; now apply F].
    destruct (owner cs n t) as [q|]; [|injection E as <-; now apply F]. destruct (dstep (cs q) (y_d s q) _) as [d|] eqn:D; [|discriminate]. injection E as <-.
    cbn [y_d]. destruct (Nat.eq_dec r q) as [->|N]; [rewrite upd_same|rewrite upd_other by exact N; now apply F]. refine (calm_dstep (cs q) (y_d s q) _ d _ _ D); [exact I|now apply F].
Qed.
Lemma fine_run n cs k : forall ls s s', all_fine n s -> forallb ycalm ls = true -> yrun n cs k s ls = Some s' -> all_fine n s'.
Proof.
  induction ls as [|l ls IH]; intros s s' F A E; cbn [yrun forallb] in *; [now injection E as <-|]. apply Bool.andb_true_iff in A as [A1 A2]. destruct (ystep n cs k s l) as [s1|] eqn:E1; [|discriminate].
  exact (IH s1 s' (fine_step n cs k s l s1 F A1 E1) A2 E).
Qed.
(** What one pipeline does by itself it does among the others *)
Definition lift (q : nat) (l : elabel) : ylabel := match l with EDyn l b a => YDyn q l b a | EPool l => YPool l end.
Lemma lift_run n cs k q : q < n -> forall ls s e, forallb inner ls = true -> erun (cs q) k (view s q) ls = Some e ->
  exists s', yrun n cs k s (map (lift q) ls) = Some s' /\ view s' q = e /\ forallb ycalm (map (lift q) ls) = true /\ forall w, yacted n cs k s (map (lift q) ls) (YThread w) = acted (cs q) k (view s q) ls (InPool w).
Proof.
  intros Hq. induction ls as [|l ls IH]; intros s e A E; cbn [erun forallb map yrun acted yacted] in *; [injection E as <-; now exists s|]. apply Bool.andb_true_iff in A as [A1 A2].
  destruct (estep (cs q) k (view s q) l) as [e1|] eqn:E1; [|discriminate]. destruct l as [l b a|l]; [|now destruct l as [| | | | | |? []|? []| | | |]]. cbn [lift ystep]. replace (Nat.ltb q n) with true by (symmetry; now apply Nat.ltb_lt). rewrite E1.
  rewrite <- (view_put s q e1) in E. destruct (IH (put_view s q e1) e A2 E) as (s' & X1 & X2 & X3 & X4). exists s'. split; [exact X1|]. split; [exact X2|]. split.
  - rewrite X3, Bool.andb_true_r. apply Bool.andb_true_iff in A1 as [A1 _]. exact A1.
  - intros w. rewrite X4, view_put. f_equal.
Qed.
Lemma ycan_act n cs k s a : separate n cs -> 0 < n -> 0 < c_max k -> all_ready n cs k s -> ybusy n k s a ->
  exists ls s', forallb ycalm ls = true /\ yrun n cs k s ls = Some s' /\ yacted n cs k s ls a = true.
Proof.
  intros SE H0 M [C R] B. destruct a as [q|w]; cbn [ybusy] in B.
  - destruct B as (Hq & B1 & B2). pose proof (R q Hq) as (G & _). destruct (main_ok (cs q) (y_d s q) B1 B2) as (d & D). destruct (edyn_ok (cs q) k (view s q) (LMain st_default) d) as (a & e & E & _); trivial; try discriminate; [exact (go_r _ _ _ G)|].
    exists [YDyn q (LMain st_default) false a], (put_view s q e). split; [reflexivity|]. cbn [yrun yacted ystep yacts]. replace (Nat.ltb q n) with true by (symmetry; now apply Nat.ltb_lt). rewrite E, Nat.eqb_refl. now split.
  - destruct (in_dec_who n s w) as [(q & Hq & IN)|NI].
    + destruct (proj1 SE q Hq) as [Hwf Ha]. destruct (act_inside (cs q) k (view s q) w Hwf Ha M (R q Hq) IN) as (ls & e & A & E & X). destruct (lift_run n cs k q Hq ls s e A E) as (s' & Y1 & _ & Y3 & Y4).
      exists (map (lift q) ls), s'. split; [exact Y3|]. split; [exact Y1|]. now rewrite Y4.
    + destruct B as [(q & Hq & B)|B]; [now destruct (NI q Hq)|]. pose proof (R 0 H0) as (G & _). destruct (act_free (cs 0) k (view s 0) w G B) as (g & p & E & L & GV & GW & PL). cbn [view e_p] in E, PL.
      assert (X : exists s', ystep n cs k s (YPool g) = Some s').
      { cbn [ystep]. rewrite GV. cbn [existsb orb]. assert (Z : existsb (fun q => inside (y_w s q) g) (seq 0 n) = false).
        { destruct (existsb (fun q => inside (y_w s q) g) (seq 0 n)) eqn:Z; trivial. apply existsb_exists in Z as (q & Hq & Z). apply in_seq in Hq. rewrite (free_not_inside (y_w s q) w g GW) in Z; [discriminate|]. apply NI. lia. }
        rewrite Z, E. destruct (executes (y_p s) g) as [[v t]|] eqn:Ex; [|now eexists]. destruct (owner cs n t) as [q|] eqn:O; [|now eexists]. apply owner_some in O as [Hq Ht].
        pose proof (R q Hq) as (Gq & (WN & WP) & (h & H) & LE). destruct (go_e _ _ _ Gq) as (hd & hp & I1). pose proof (to_len _ _ _ (ei_t _ _ _ _ _ I1)) as TL. cbn [view e_who e_d e_p] in *.
        pose proof (taken (cs q) k hd hp (view s q) g p v t I1 E Ex Ht) as TK. cbn [view e_d] in TK. cbn [dstep]. rewrite (index_of_nth t _ TK).
        assert (W : Nat.ltb (length (d_act (y_d s q))) (c_workers (cs q)) = true) by (apply Nat.ltb_lt; pose proof (few (y_w s q) k (y_p s) w WN WP (NI q Hq) PL); lia). rewrite W. now eexists. }
      destruct X as (s' & X). exists [YPool g], s'. split; [destruct g; try contradiction; cbn in L |- *; now rewrite L|]. cbn [yrun yacted]. rewrite X. split; [reflexivity|]. destruct g; try contradiction; subst w; cbn [yacts]; now rewrite Nat.eqb_refl.
Qed.
Lemma yround_of n cs k : separate n cs -> 0 < n -> batches_ok k -> 0 < c_max k -> forall L s, all_ready n cs k s ->
  exists ls s', forallb ycalm ls = true /\ yrun n cs k s ls = Some s' /\ forall a, In a L -> yresting n k s a \/ yacted n cs k s ls a = true.
Proof.
  intros SE H0 HB M. induction L as [|a L IH]; intros s G; [exists [], s; now repeat split|]. destruct (IH s G) as (ls & s1 & A & E & F).
  destruct (ybusy_or n k s a) as [B|B]; [|exists ls, s1; split; [exact A|]; split; [exact E|]; intros b [<-|Hb]; [now left|now apply F]].
  destruct (yacted n cs k s ls a) eqn:AC; [exists ls, s1; split; [exact A|]; split; [exact E|]; intros b [<-|Hb]; [now right|now apply F]|].
  pose proof (ybusy_run n cs k a SE H0 ls s s1 (proj1 G) (ycalm_work _ A) E AC B) as B1. destruct (ycan_act n cs k s1 a SE H0 M (all_ready_run n cs k SE HB ls s s1 G (ycalm_may _ A) E) B1) as (l2 & s2 & A2 & E2 & AC2).
  exists (ls ++ l2), s2. split; [now rewrite forallb_app, A, A2|]. split; [now rewrite (yrun_app n cs k _ _ _ _ E)|]. intros b Hb. rewrite (yacted_app n cs k b l2 ls s s1 E).
  destruct Hb as [<-|Hb]; [right; rewrite AC2; apply Bool.orb_true_r|]. destruct (F b Hb) as [X|X]; [now left|right; now rewrite X].
Qed.
Lemma yrounds_exist n cs k : separate n cs -> 0 < n -> batches_ok k -> 0 < c_max k -> forall r s, all_ready n cs k s -> all_fine n s -> exists s', yfair_rounds n cs k s r 0 s' /\ all_fine n s'.
Proof.
  intros SE H0 HB M. induction r as [|r IH]; intros s G N; [exists s; split; [constructor|exact N]|].
  destruct (yround_of n cs k SE H0 HB M (map YCaller (seq 0 n) ++ flat_map (fun q => map YThread (y_w s q)) (seq 0 n) ++ map (fun i => YThread (Prim i)) (seq 0 (c_def k)) ++ map (fun j => YThread (Sec j)) (seq 0 (p_nsec (y_p s)))) s G) as (ls & s1 & A & E & F).
  destruct (IH s1 (all_ready_run n cs k SE HB ls s s1 G (ycalm_may _ A) E) (fine_run n cs k ls s s1 N A E)) as (s2 & R & N2). exists s2. split; [|exact N2]. rewrite <- (ycalm_hits ls A), <- (Nat.add_0_r (yhits ls)).
  refine (yf_next n cs k s ls s1 r 0 s2 E (conj (ycalm_may _ A) _) R). intros a. destruct (ybusy_or n k s a) as [B|B]; [|now left]. apply F. rewrite !in_app_iff.
  destruct a as [q|w]; cbn [ybusy] in B.
  - left. apply in_map, in_seq. lia.
  - right. destruct B as [(q & Hq & B)|B]; [left; apply in_flat_map; exists q; split; [apply in_seq; lia|now apply in_map]|right]. destruct w as [i|j]; [left|right].
    + apply (in_map (fun i => YThread (Prim i))), in_seq. lia.
    + apply (in_map (fun j => YThread (Sec j))), in_seq. destruct (Nat.lt_ge_cases j (p_nsec (y_p s))) as [Z|Z]; [lia|]. destruct G as [_ G]. destruct (G 0 H0) as (G0 & _). pose proof (iv_sec _ _ (go_p _ _ _ G0) j Z) as Q. cbn [view e_p] in Q. congruence.
Qed.
