(** Nobody who is not resting can be kept from acting: fair rounds of the static engine on the pool always exist *)
From Verif Require Import GraphSpec SEngSpec StaticProofs PoolProofs PoolLive BindProofs EngPoolProofs EngLiveProofs EngFairProofs SEngProofs SEngLive.
From Coq Require Import Lia Permutation.
Local Open Scope nat_scope.
Local Open Scope list_scope.

Lemma xbusy_run c k a : forall ls s s', forallb xat_work ls = true -> xrun c k s ls = Some s' -> xacted ls a = false -> xbusy k s a -> xbusy k s' a.
Proof.
  induction ls as [|l ls IH]; intros s s' A E N B; cbn [xrun forallb xacted existsb] in *; [now injection E as <-|]. apply Bool.andb_true_iff in A as [A1 A2]. apply Bool.orb_false_iff in N as [N1 N2].
  destruct (xstep c k s l) as [s1|] eqn:E1; [|discriminate]. apply (IH s1 s' A2 E N2). exact (xbusy_step c k s l s1 a A1 E1 N1 B).
Qed.
Lemma xacted_app a l1 l2 : xacted (l1 ++ l2) a = xacted l1 a || xacted l2 a.
Proof. apply existsb_app. Qed.
Lemma xwork_may ls : forallb xat_work ls = true -> forallb xmay ls = true.
Proof. rewrite !forallb_forall. intros H l Hl. unfold xmay. now rewrite (H l Hl). Qed.
Lemma xwork_hits ls : forallb xat_work ls = true -> xhits ls = 0.
Proof.
  unfold xhits. induction ls as [|l ls IH]; [reflexivity|]. cbn [forallb filter]. intros H. apply Bool.andb_true_iff in H as [H1 H2].
  replace (xdisturbs l) with false; [now apply IH|]. destruct l as [| | |[]]; try discriminate; trivial; cbn in *; now subst.
Qed.
(** In these steps elements report no error *)
Definition xcalm (l : xlabel) : bool := xat_work l && match l with XMain r _ _ | XDone _ r => isOK r | _ => true end.
Lemma xcalm_work ls : forallb xcalm ls = true -> forallb xat_work ls = true.
Proof. rewrite !forallb_forall. intros H l Hl. specialize (H l Hl). unfold xcalm in H. now apply Bool.andb_true_iff in H as [H _]. Qed.
Lemma okcode r : isOK r = true -> (0 <= code r)%Z.
Proof. unfold isOK, STATUS_OK. intros H. apply Z.eqb_eq in H. lia. Qed.
Lemma xcalm_step c k s l s' : xcalm l = true -> no_error (s_tr (se_s s)) -> xstep c k s l = Some s' -> no_error (s_tr (se_s s')).
Proof.
  intros C N E. apply Bool.andb_true_iff in C as [A C]. assert (X : se_s s' = se_s s \/ exists sl, sstep (se_s s) sl = Some (se_s s') /\ match sl with SMain r | SFinish _ r => isOK r = true | _ => True end).
  { destruct l as [|r b a|w r|g]; try discriminate; cbn [xstep] in E.
    - destruct (sstep (se_s s) (SMain r)) as [d|] eqn:D; [|discriminate]. right. exists (SMain r). destruct (commits (se_s s)); [destruct (pool_step k (se_p s) _); try discriminate|]; injection E as <-; now split.
    - destruct (who_has w (se_who s)) as [e|]; [|discriminate]. destruct (sstep (se_s s) (SFinish e r)) as [d|] eqn:D; [|discriminate]. injection E as <-. right. now exists (SFinish e r).
    - destruct (existsb _ _ || _); [discriminate|]. destruct (pool_step k (se_p s) g); try discriminate. destruct (executes (se_p s) g) as [[v t]|]; [destruct (memb t _)|]; try (injection E as <-; now left).
      destruct (sstep (se_s s) (SStart t)) as [d|] eqn:D; [|discriminate]. injection E as <-. right. now exists (SStart t). }
  destruct X as [->|(sl & D & O)]; [exact N|]. assert (Y : exists x, s_tr (se_s s') = s_tr (se_s s) ++ x /\ forall e q, In (GFinish e q) x -> (0 <= code q)%Z).
  { destruct sl as [r|e|e r]; cbn [sstep] in D.
    - destruct (s_out (se_s s)); [discriminate|]. destruct (s_main (se_s s)) as [|[e|e|e|e|] m]; [| | | | |].
      + injection D as <-. exists []. split; [cbn; now rewrite app_nil_r|easy].
      + injection D as <-. exists []. split; [cbn; now rewrite app_nil_r|easy].
      + injection D as <-. eexists. split; [reflexivity|]. intros x q [H|[]]. discriminate.
      + injection D as <-. eexists. split; [reflexivity|]. intros x q [H|[]]. injection H as _ <-. now apply okcode.
      + destruct (lookup e (s_futs (se_s s))); [|discriminate]. injection D as <-. exists []. split; [cbn; now rewrite app_nil_r|easy].
      + destruct (check_status (s_stat (se_s s))); injection D as <-; exists []; (split; [cbn; now rewrite app_nil_r|easy]).
    - destruct (remove1 e (s_queue (se_s s))); [|discriminate]. injection D as <-. eexists. split; [reflexivity|]. intros x q [H|[]]. discriminate.
    - destruct (remove1 e (s_running (se_s s))); [|discriminate]. injection D as <-. eexists. split; [reflexivity|]. intros x q [H|[]]. injection H as _ <-. now apply okcode. }
  destruct Y as (x & -> & Y). intros e q H. apply in_app_iff in H as [H|H]; [exact (N e q H)|exact (Y e q H)].
Qed.
Lemma xcalm_run c k : forall ls s s', forallb xcalm ls = true -> no_error (s_tr (se_s s)) -> xrun c k s ls = Some s' -> no_error (s_tr (se_s s')).
Proof.
  induction ls as [|l ls IH]; intros s s' A N E; cbn [xrun forallb] in *; [now injection E as <-|]. apply Bool.andb_true_iff in A as [A1 A2].
  destruct (xstep c k s l) as [s1|] eqn:E1; [|discriminate]. exact (IH s1 s' A2 (xcalm_step c k s l s1 A1 N E1) E).
Qed.
(** Whoever is not resting gets to act *)
Lemma xcan_act c k g s a : wf g -> layering g (sc_mat c) -> 0 < c_max k -> xgood c k g s -> xbusy k s a -> exists l s', xcalm l = true /\ xstep c k s l = Some s' /\ xacts l a = true.
Proof.
  intros Hwf Hl M G B. destruct (xg_i _ _ _ _ G) as (hs & hp & GI). destruct a as [|w]; cbn [xbusy] in B.
  - assert (D : exists d, sstep (se_s s) (SMain st_default) = Some d).
    { cbn [sstep]. destruct (s_out (se_s s)) eqn:O; [destruct B; left; congruence|]. destruct (s_main (se_s s)) as [|[e|e|e|e|] m] eqn:Em; try (now eexists).
      - destruct (lookup e (s_futs (se_s s))) eqn:L; [now eexists|]. destruct B. right. exists e, m. split; [exact Em|]. intros v H. apply (in_map fst) in H. apply lookup_some in H as (u & H). cbn in H. congruence.
      - destruct (check_status (s_stat (se_s s))); now eexists. }
    destruct D as (d & D). destruct (commits (se_s s)) as [e|] eqn:Cm.
    + destruct (submit_ok k (se_p s) e (sc_bind c e) (xg_r _ _ _ _ G) M) as (a & p' & Ep). exists (XMain st_default false a). eexists. split; [reflexivity|]. split; [cbn [xstep]; rewrite D, Cm, Ep; reflexivity|reflexivity].
    + exists (XMain st_default false 0). eexists. split; [reflexivity|]. split; [cbn [xstep]; rewrite D, Cm; reflexivity|reflexivity].
  - destruct (in_who_dec w (map fst (se_who s))) as [IN|NI].
    + destruct (who_has_some w _ IN) as (e & He). assert (D : exists d, sstep (se_s s) (SFinish e st_default) = Some d).
      { cbn [sstep]. assert (R : In e (s_running (se_s s))); [|apply remove1_some in R as (l & ->); now eexists]. apply who_has_in in He. apply (in_map snd) in He. cbn in He.
        apply cnt_in in He. pose proof (xi_r _ _ _ _ _ _ GI e) as R. apply cnt_in. lia. }
      destruct D as (d & D). exists (XDone w st_default). eexists. split; [reflexivity|]. split; [cbn [xstep]; rewrite He, D; reflexivity|]. cbn. apply thr_eqb_refl.
    + destruct B as [B|B]; [contradiction|].
      assert (X : exists q p, pool_step k (se_p s) q = Next p /\ lucky q = true /\ given1 q = [] /\ inside (map fst (se_who s)) q = false /\ xacts (XPool q) (InPool w) = true).
      { assert (IS : forall q, match q with LPrim i _ => w = Prim i | LSec j _ => w = Sec j | _ => False end -> inside (map fst (se_who s)) q = false).
        { intros q Hq. destruct (inside (map fst (se_who s)) q) eqn:IG; trivial. exfalso. apply NI. destruct q; try contradiction; subst w; cbn [inside] in IG; apply existsb_exists in IG as (v & V & Hv); now apply thr_eqb_eq in Hv as <-. }
        destruct (xg_r _ _ _ _ G) as (R1 & R2 & _). destruct w as [i|j].
        - exists (LPrim i true). destruct (lv_p _ _ (xg_l _ _ _ _ G) R1 i B) as [L1 L2]. assert (Y : exists p, prim_step k (se_p s) i true = Next p).
          { unfold prim_step. destruct (p_pt (se_p s) i) as [| |[|n]|[|x r]|]; try congruence; try (now eexists).
            - destruct (p_lk (se_p s) i), (own_take k (p_wsq (se_p s) i)) as [[|x a] b]; now eexists.
            - destruct (nth_error (targets k i) n) as [m|]; [destruct (p_lk (se_p s) m), (steal_take k (p_wsq (se_p s) m)) as [[|x a] b]; now eexists|].
              destruct (pool_take k (p_q (se_p s))) as [[|x a] b]; now eexists.
            - specialize (R2 i B). specialize (L2 eq_refl). congruence. }
          destruct Y as (p & Y). exists p. split; [exact Y|]. split; [reflexivity|]. split; [reflexivity|]. split; [now apply IS|]. cbn. apply Nat.eqb_refl.
        - exists (LSec j true). assert (Y : exists p, sec_step k (se_p s) j true = Next p).
          { unfold sec_step. destruct (p_st (se_p s) j) as [| | | |[|x r]|]; try congruence; try (now eexists).
            - destruct (pool_take k (p_q (se_p s))) as [[|x a] b]; now eexists.
            - destruct (prio_take (p_prio (se_p s))) as [[|x a] b]; now eexists.
            - destruct (p_q (se_p s)); now eexists. }
          destruct Y as (p & Y). exists p. split; [exact Y|]. split; [reflexivity|]. split; [reflexivity|]. split; [now apply IS|]. cbn. apply Nat.eqb_refl. }
      destruct X as (q & p & Ep & L & GV & IG & AC). assert (Y : exists s', xstep c k s (XPool q) = Some s').
      { cbn [xstep]. rewrite GV, IG, Ep. cbn [existsb orb]. destruct (executes (se_p s) q) as [[v t]|] eqn:Ex; [|now eexists]. destruct (memb t (concat (sc_mat c))) eqn:Mt; [|now eexists]. apply memb_in in Mt.
        pose proof (xtaken c k g hs hp s q p v t GI Ep Ex Mt) as T. apply remove1_some in T as (l & T). cbn [sstep]. rewrite T. now eexists. }
      destruct Y as (s' & Y). exists (XPool q), s'. split; [|now split]. destruct q; try discriminate; cbn in L |- *; now rewrite L.
Qed.
Lemma xgood_run c k g : wf g -> layering g (sc_mat c) -> forall ls s s', xgood c k g s -> forallb xmay ls = true -> xrun c k s ls = Some s' -> xgood c k g s'.
Proof.
  intros Hwf Hl. induction ls as [|l ls IH]; intros s s' G A E; cbn [xrun forallb] in *; [now injection E as <-|]. apply Bool.andb_true_iff in A as [A1 A2].
  destruct (xstep c k s l) as [s1|] eqn:E1; [|discriminate]. apply (IH s1 s'); trivial. exact (xgood_step c k g s l s1 Hwf Hl G A1 E1).
Qed.
(** So a round of everyone exists *)
Lemma xround_of c k g : wf g -> layering g (sc_mat c) -> 0 < c_max k -> forall L s, xgood c k g s ->
  exists ls s', forallb xcalm ls = true /\ xrun c k s ls = Some s' /\ forall a, In a L -> xresting k s a \/ xacted ls a = true.
Proof.
  intros Hwf Hl M. induction L as [|a L IH]; intros s G; [exists [], s; now repeat split|]. destruct (IH s G) as (ls & s1 & A & E & F).
  destruct (xbusy_or k s a) as [B|B]; [|exists ls, s1; split; [exact A|]; split; [exact E|]; intros b [<-|Hb]; [now left|now apply F]].
  destruct (xacted ls a) eqn:AC; [exists ls, s1; split; [exact A|]; split; [exact E|]; intros b [<-|Hb]; [now right|now apply F]|].
  pose proof (xbusy_run c k a ls s s1 (xcalm_work _ A) E AC B) as B1. destruct (xcan_act c k g s1 a Hwf Hl M (xgood_run c k g Hwf Hl ls s s1 G (xwork_may _ (xcalm_work _ A)) E) B1) as (l2 & s2 & A2 & E2 & AC2).
  exists (ls ++ [l2]), s2. split; [rewrite forallb_app, A; cbn; now rewrite A2|]. split; [rewrite (xrun_cat c k _ _ _ _ E); cbn [xrun]; now rewrite E2|]. intros b Hb. rewrite xacted_app.
  destruct Hb as [<-|Hb]; [right; cbn; rewrite AC2; apply Bool.orb_true_r|]. destruct (F b Hb) as [X|X]; [now left|right; now rewrite X].
Qed.
Lemma xrounds_exist c k g : wf g -> layering g (sc_mat c) -> 0 < c_max k -> forall n s, xgood c k g s -> no_error (s_tr (se_s s)) -> exists s', xrounds c k s n 0 s' /\ no_error (s_tr (se_s s')).
Proof.
  intros Hwf Hl M. induction n as [|n IH]; intros s G N; [exists s; split; [constructor|exact N]|].
  destruct (xround_of c k g Hwf Hl M (Caller :: map InPool (map fst (se_who s)) ++ map (fun i => InPool (Prim i)) (seq 0 (c_def k)) ++ map (fun j => InPool (Sec j)) (seq 0 (p_nsec (se_p s)))) s G) as (ls & s1 & A & E & F).
  destruct (IH s1 (xgood_run c k g Hwf Hl ls s s1 G (xwork_may _ (xcalm_work _ A)) E) (xcalm_run c k ls s s1 A N E)) as (s2 & R & N2). exists s2. split; [|exact N2].
  rewrite <- (xwork_hits ls (xcalm_work _ A)), <- (Nat.add_0_r (xhits ls)). refine (xr_next c k s ls s1 n 0 s2 E (conj (xwork_may _ (xcalm_work _ A)) _) R). intros a. destruct (xbusy_or k s a) as [B|B]; [|now left]. apply F.
  destruct a as [|w]; [now left|right]. cbn [xbusy] in B. apply in_or_app. destruct B as [B|B]; [left; now apply in_map|right]. apply in_or_app. destruct w as [i|j]; [left|right].
  - apply (in_map (fun i => InPool (Prim i))), in_seq. lia.
  - apply (in_map (fun j => InPool (Sec j))), in_seq. destruct (Nat.lt_ge_cases j (p_nsec (se_p s))) as [Z|Z]; [lia|]. now rewrite (iv_sec _ _ (xg_p _ _ _ _ G) j Z) in B.
Qed.
