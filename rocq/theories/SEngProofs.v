From Verif Require Import GraphSpec SEngSpec StaticProofs SEngLeft PoolProofs PoolLive BindProofs EngPoolProofs EngLiveProofs EngFairProofs.
From Coq Require Import Lia Permutation.
Local Open Scope nat_scope.
Local Open Scope list_scope.

Lemma who_has_in w e : forall l, who_has w l = Some e -> In (w, e) l.
Proof. induction l as [|[v x] l IH]; cbn [who_has]; [discriminate|]. destruct (thr_eqb w v) eqn:E; intros H; [apply thr_eqb_eq in E as <-; injection H as <-; now left|right; now apply IH]. Qed.
Lemma who_has_some w : forall l, In w (map fst l) -> exists e, who_has w l = Some e.
Proof. induction l as [|[v x] l IH]; cbn [who_has map]; [easy|]. destruct (thr_eqb w v) eqn:E; intros H; [now exists x|]. destruct H as [H|H]; [cbn in H; subst v; now rewrite thr_eqb_refl in E|now apply IH]. Qed.
Lemma who_out_perm w e : forall l, who_has w l = Some e -> Permutation l ((w, e) :: who_out w l).
Proof.
  induction l as [|[v x] l IH]; cbn [who_has who_out]; [discriminate|]. destruct (thr_eqb w v) eqn:E; intros H; [apply thr_eqb_eq in E as <-; injection H as <-; apply Permutation_refl|].
  transitivity ((v, x) :: (w, e) :: who_out w l); [apply perm_skip; now apply IH|apply perm_swap].
Qed.
Lemma perm_cnt (l1 l2 : list nat) t : Permutation l1 l2 -> cnt t l1 = cnt t l2.
Proof. intros P. now apply (Permutation_count_occ Nat.eq_dec). Qed.
Lemma remove1_count e l l' t : remove1 e l = Some l' -> cnt t l = cnt t [e] + cnt t l'.
Proof.
  intros H. pose proof (remove1_cnt e l l' H t) as R. unfold StaticProofs.cnt in R. rewrite R. cbn. destruct (Nat.eqb_spec e t) as [->|N]; cbn [b2n]; destruct (Nat.eq_dec _ _); try congruence; lia.
Qed.
(** What a step of the engine does to its two lists *)
Lemma sstep_lists s l s' t : sstep s l = Some s' ->
  match l with
  | SMain _ => cnt t (s_queue s') = cnt t (s_queue s) + cnt t (match commits s with Some e => [e] | None => [] end) /\ s_running s' = s_running s
  | SStart e => cnt t (s_queue s) = cnt t [e] + cnt t (s_queue s') /\ cnt t (s_running s') = cnt t [e] + cnt t (s_running s)
  | SFinish e _ => s_queue s' = s_queue s /\ cnt t (s_running s) = cnt t [e] + cnt t (s_running s')
  end.
Proof.
  intros E. destruct l as [r|e|e r]; cbn [sstep] in E.
  - destruct (s_out s); [discriminate|]. unfold commits. destruct (s_main s) as [|[e|e|e|e|] m].
    + injection E as <-. cbn. split; [lia|reflexivity].
    + injection E as <-. cbn [s_queue s_running]. rewrite cnt_app. now split.
    + injection E as <-. cbn. split; [lia|reflexivity].
    + injection E as <-. cbn. split; [lia|reflexivity].
    + destruct (lookup e (s_futs s)); [|discriminate]. injection E as <-. cbn. split; [lia|reflexivity].
    + destruct (check_status (s_stat s)); injection E as <-; cbn; (split; [lia|reflexivity]).
  - destruct (remove1 e (s_queue s)) as [q|] eqn:R; [|discriminate]. injection E as <-. cbn [s_queue s_running]. split; [now apply remove1_count|]. now rewrite cnt_cons.
  - destruct (remove1 e (s_running s)) as [q|] eqn:R; [|discriminate]. injection E as <-. cbn [s_queue s_running]. split; [reflexivity|now apply remove1_count].
Qed.
Lemma sstep_tr s l s' : sstep s l = Some s' -> exists x, s_tr s' = s_tr s ++ x /\ forall e, In (GStart e) x -> l = SStart e \/ exists r m, l = SMain r /\ s_main s = AMacroStart e :: m.
Proof.
  intros E. destruct l as [r|e|e r]; cbn [sstep] in E.
  - destruct (s_out s); [discriminate|]. destruct (s_main s) as [|[e|e|e|e|] m].
    + injection E as <-. exists []. cbn. rewrite app_nil_r. now split.
    + injection E as <-. exists []. cbn. rewrite app_nil_r. now split.
    + injection E as <-. eexists. split; [reflexivity|]. intros x [H|[]]. injection H as <-. right. now exists r, m.
    + injection E as <-. eexists. split; [reflexivity|]. intros x [H|[]]. discriminate.
    + destruct (lookup e (s_futs s)); [|discriminate]. injection E as <-. exists []. cbn. rewrite app_nil_r. now split.
    + destruct (check_status (s_stat s)); injection E as <-; exists []; cbn; rewrite app_nil_r; now split.
  - destruct (remove1 e (s_queue s)); [|discriminate]. injection E as <-. eexists. split; [reflexivity|]. intros x [H|[]]. injection H as <-. now left.
  - destruct (remove1 e (s_running s)); [|discriminate]. injection E as <-. eexists. split; [reflexivity|]. intros x [H|[]]. discriminate.
Qed.
Lemma srun_app : forall l1 l2 s, srun s (l1 ++ l2) = match srun s l1 with Some s1 => srun s1 l2 | None => None end.
Proof. induction l1 as [|l l1 IH]; intros l2 s; cbn [app srun]; [reflexivity|]. destruct (sstep s l); trivial. Qed.

(** Everything together; [hs]: what the engine did since the last call of run; [hp]: what the pool did *)
Record xinv (c : secfg) (k : cfg) (g : graph) (hs : list slabel) (hp : list plabel) (s : seng) : Prop :=
  { xi_s : se_s s = s_none \/ (srun (s_init (sc_inl c) (sc_mat c)) hs = Some (se_s s) /\ exists con, sinv (sc_inl c) g (sc_mat c) (se_s s) con);
    xi_p : pool_run k pool_new hp = Some (se_p s);
    xi_g : forall g t, In g hp -> In t (given1 g) -> In t (concat (sc_mat c)) -> exists b a, g = LSubmit t (sc_bind c t) b a;
    xi_w : NoDup (map fst (se_who s));
    xi_o : forall w e, In (w, e) (se_who s) -> place k (se_p s) w /\ obeys k (sc_bind c e) w;
    xi_r : forall t, cnt t (map snd (se_who s)) = cnt t (s_running (se_s s));
    xi_c : forall t, In t (concat (sc_mat c)) -> census k (se_p s) t = cnt t (p_log (se_p s)) + cnt t (s_queue (se_s s)) }.
Lemma s_none_step l : sstep s_none l = None.
Proof. now destruct l. Qed.
Lemma xtaken c k g hs hp s l p w t : xinv c k g hs hp s -> pool_step k (se_p s) l = Next p -> executes (se_p s) l = Some (w, t) -> In t (concat (sc_mat c)) -> In t (s_queue (se_s s)).
Proof.
  intros I E X H. apply cnt_in. pose proof (xi_c _ _ _ _ _ _ I t H) as C. destruct (pool_run_inv k hp pool_new _ (pinv_new k) (xi_p _ _ _ _ _ _ I)) as [PI _].
  destruct (pool_step_inv k _ l p PI E) as [_ CE]. specialize (CE t). assert (G : given1 l = []) by (destruct l; cbn [executes] in X; try discriminate; reflexivity). rewrite G in CE. cbn in CE.
  pose proof (census_ge k p t) as CG. pose proof (executes_log k _ l p E) as L. rewrite X in L. rewrite L, cnt_cons in CG. assert (O : cnt t [t] = 1) by (cbn; now destruct (Nat.eq_dec t t)).
  destruct (drop_app k _ l p E) as (y & D). rewrite D, cnt_app in CG. lia.
Qed.
Lemma xallowed c k g hs hp s l p w t : xinv c k g hs hp s -> pool_step k (se_p s) l = Next p -> executes (se_p s) l = Some (w, t) -> In t (concat (sc_mat c)) -> obeys k (sc_bind c t) w.
Proof.
  intros I E X H.
  assert (P : places k (fun w t => exists g, In g hp /\ In t (given1 g) /\ may k w g) (se_p s)).
  { apply (places_run k _ hp pool_new); [apply pinv_new|apply places_new| |exact (xi_p _ _ _ _ _ _ I)]. intros q x v Hg Hx Hm. now exists q. }
  assert (Y : exists g, In g hp /\ In t (given1 g) /\ may k w g).
  { destruct l; cbn [executes] in X; try discriminate.
    - destruct (p_pt (se_p s) i) as [| |q|[|x r]|] eqn:Ep; try discriminate. injection X as <- <-. apply (pl_pt _ _ _ P). rewrite Ep. now left.
    - destruct (p_st (se_p s) j) as [| | | |[|x r]|] eqn:Ep; try discriminate. injection X as <- <-. apply (pl_st _ _ _ P). rewrite Ep. now left. }
  destruct Y as (q & G1 & G2 & G3). destruct (xi_g _ _ _ _ _ _ I q t G1 G2 H) as (b & a & ->). exact G3.
Qed.
Lemma place_step k p g p' w : pool_step k p g = Next p' -> place k p w -> place k p' w.
Proof. intros E P. destruct (nsec_step k _ _ _ E) as (M & _). destruct w; cbn [place] in *; lia. Qed.
Lemma exec_place k p g p' w t : pinv k p -> pool_step k p g = Next p' -> executes p g = Some (w, t) -> place k p' w.
Proof.
  intros PI E Ex. apply (place_step k p g p' w E). destruct g; try discriminate; cbn [executes] in Ex.
  - destruct (p_pt p i) as [| | |[|x r]|] eqn:EP; try discriminate. injection Ex as <- <-. cbn [place]. destruct (Nat.lt_ge_cases i (c_def k)) as [H|H]; [exact H|]. destruct (iv_prim _ _ PI i H). congruence.
  - destruct (p_st p j) as [| | | |[|x r]|] eqn:EP; try discriminate. injection Ex as <- <-. cbn [place]. destruct (Nat.lt_ge_cases j (p_nsec p)) as [H|H]; [lia|]. rewrite (iv_sec _ _ PI j H) in EP. discriminate.
Qed.
Lemma exec_who p g w t who : executes p g = Some (w, t) -> inside who g = false -> ~ In w who.
Proof.
  intros Ex IN. destruct g; try discriminate; cbn [executes] in Ex.
  - destruct (p_pt p i) as [| | |[|x r]|]; try discriminate. injection Ex as <- <-. exact (not_inside _ (Prim i) (LPrim i ok) eq_refl IN).
  - destruct (p_st p j) as [| | | |[|x r]|]; try discriminate. injection Ex as <- <-. exact (not_inside _ (Sec j) (LSec j ok) eq_refl IN).
Qed.
Lemma xstep_inv c k g hs hp s l s' : wf g -> layering g (sc_mat c) -> xinv c k g hs hp s -> xstep c k s l = Some s' ->
  xinv c k g (match l with XRun => [] | _ => hs ++ stat1 c s l end) (hp ++ pool1x c s l) s'.
Proof.
  intros Hwf Hl I E. destruct (pool_run_inv k hp pool_new _ (pinv_new k) (xi_p _ _ _ _ _ _ I)) as [PI _].
  assert (SS : forall dl d, sstep (se_s s) dl = Some d -> d = s_none \/ (srun (s_init (sc_inl c) (sc_mat c)) (hs ++ [dl]) = Some d /\ exists con, sinv (sc_inl c) g (sc_mat c) d con)).
  { intros dl d D. destruct (xi_s _ _ _ _ _ _ I) as [F|(R & con & SI)]; [rewrite F, s_none_step in D; discriminate|]. right. split; [rewrite srun_app, R; cbn [srun]; now rewrite D|].
    exact (sinv_step _ _ _ Hwf Hl _ con dl d SI D). }
  destruct l as [|r busy a|w r|l]; cbn [xstep stat1 pool1x] in *; rewrite ?app_nil_r.
  - destruct (s_out (se_s s)) eqn:O; [|discriminate]. injection E as <-.
    assert (Z : s_queue (se_s s) = [] /\ s_running (se_s s) = []).
    { destruct (xi_s _ _ _ _ _ _ I) as [F|(R & con & SI)]; [now rewrite F|]. apply (nothing_left _ g _ _ con Hwf Hl SI). congruence. }
    destruct Z as [Z1 Z2]. constructor; cbn [se_s se_p se_who].
    + right. split; [reflexivity|]. exists []. apply sinv_init.
    + exact (xi_p _ _ _ _ _ _ I).
    + exact (xi_g _ _ _ _ _ _ I).
    + exact (xi_w _ _ _ _ _ _ I).
    + exact (xi_o _ _ _ _ _ _ I).
    + intros t. rewrite (xi_r _ _ _ _ _ _ I t), Z2. reflexivity.
    + intros t Ht. rewrite (xi_c _ _ _ _ _ _ I t Ht), Z1. reflexivity.
  - destruct (sstep (se_s s) (SMain r)) as [d|] eqn:D; [|discriminate]. pose proof (fun t => sstep_lists _ _ _ t D) as L. cbn beta iota in L.
    destruct (commits (se_s s)) as [e|] eqn:C.
    + destruct (pool_step k (se_p s) (LSubmit e (sc_bind c e) busy a)) as [| |p] eqn:Ep; try discriminate. injection E as <-. constructor; cbn [se_s se_p se_who].
      * exact (SS _ _ D).
      * rewrite prun_app, (xi_p _ _ _ _ _ _ I). cbn [pool_run]. now rewrite Ep.
      * intros q t Hg Ht He. apply in_app_or in Hg as [Hg|[Hg|[]]]; [now apply (xi_g _ _ _ _ _ _ I)|]. subst q. destruct Ht as [<-|[]]. now exists busy, a.
      * exact (xi_w _ _ _ _ _ _ I).
      * intros w x Hx. destruct (xi_o _ _ _ _ _ _ I w x Hx) as [O1 O2]. split; [exact (place_step k _ _ _ w Ep O1)|exact O2].
      * intros t. destruct (L t) as [_ ->]. apply (xi_r _ _ _ _ _ _ I).
      * intros t Ht. destruct (pool_step_inv k _ _ p PI Ep) as [_ CE]. rewrite (CE t), (executes_log k _ _ p Ep). destruct (L t) as [-> _]. cbn [executes given1]. pose proof (xi_c _ _ _ _ _ _ I t Ht). lia.
    + injection E as <-. rewrite app_nil_r. constructor; cbn [se_s se_p se_who].
      * exact (SS _ _ D).
      * exact (xi_p _ _ _ _ _ _ I).
      * exact (xi_g _ _ _ _ _ _ I).
      * exact (xi_w _ _ _ _ _ _ I).
      * exact (xi_o _ _ _ _ _ _ I).
      * intros t. destruct (L t) as [_ ->]. apply (xi_r _ _ _ _ _ _ I).
      * intros t Ht. destruct (L t) as [-> _]. cbn [count_occ]. pose proof (xi_c _ _ _ _ _ _ I t Ht). lia.
  - destruct (who_has w (se_who s)) as [e|] eqn:W; [|discriminate]. destruct (sstep (se_s s) (SFinish e r)) as [d|] eqn:D; [|discriminate]. injection E as <-.
    pose proof (fun t => sstep_lists _ _ _ t D) as L. cbn beta iota in L. pose proof (who_out_perm w e _ W) as PM. constructor; cbn [se_s se_p se_who].
    + exact (SS _ _ D).
    + exact (xi_p _ _ _ _ _ _ I).
    + exact (xi_g _ _ _ _ _ _ I).
    + pose proof (Permutation_NoDup (Permutation_map fst PM) (xi_w _ _ _ _ _ _ I)) as N. cbn [map] in N. now inversion N.
    + intros v x Hx. apply (xi_o _ _ _ _ _ _ I). apply (Permutation_in _ (Permutation_sym PM)). now right.
    + intros t. pose proof (perm_cnt _ _ t (Permutation_map snd PM)) as PC. cbn [map snd] in PC. rewrite cnt_cons in PC. destruct (L t) as [_ L2]. pose proof (xi_r _ _ _ _ _ _ I t). lia.
    + intros t Ht. destruct (L t) as [-> _]. exact (xi_c _ _ _ _ _ _ I t Ht).
  - destruct (existsb (fun t => memb t (concat (sc_mat c))) (given1 l)) eqn:EX; cbn [orb] in E; [discriminate|]. destruct (inside (map fst (se_who s)) l) eqn:IN; [discriminate|].
    destruct (pool_step k (se_p s) l) as [| |p] eqn:Ep; try discriminate.
    assert (HP : pool_run k pool_new (hp ++ [l]) = Some p) by (rewrite prun_app, (xi_p _ _ _ _ _ _ I); cbn [pool_run]; now rewrite Ep).
    assert (HG : forall t, In t (given1 l) -> In t (concat (sc_mat c)) -> False).
    { intros t Ht He. assert (F : existsb (fun t => memb t (concat (sc_mat c))) (given1 l) = true) by (apply existsb_exists; exists t; split; [exact Ht|now apply memb_in]). congruence. }
    assert (HG2 : forall q t, In q (hp ++ [l]) -> In t (given1 q) -> In t (concat (sc_mat c)) -> exists b a, q = LSubmit t (sc_bind c t) b a).
    { intros q t Hg Ht He. apply in_app_or in Hg as [Hg|[<-|[]]]; [now apply (xi_g _ _ _ _ _ _ I)|]. destruct (HG t Ht He). }
    destruct (pool_step_inv k _ _ p PI Ep) as [_ CE]. pose proof (executes_log k _ _ p Ep) as LG.
    assert (CT : forall t, In t (concat (sc_mat c)) -> census k p t = census k (se_p s) t) by (intros t Ht; rewrite (CE t); assert (Z : cnt t (given1 l) = 0) by (apply cnt_notin; intros F; now apply (HG t)); lia).
    assert (HO : forall w x, In (w, x) (se_who s) -> place k p w /\ obeys k (sc_bind c x) w) by (intros w x Hx; destruct (xi_o _ _ _ _ _ _ I w x Hx) as [O1 O2]; split; [exact (place_step k _ _ _ w Ep O1)|exact O2]).
    destruct (executes (se_p s) l) as [[w t]|] eqn:Ex.
    + destruct (memb t (concat (sc_mat c))) eqn:Em.
      * destruct (sstep (se_s s) (SStart t)) as [d|] eqn:D; [|discriminate]. injection E as <-. apply memb_in in Em. pose proof (fun t => sstep_lists _ _ _ t D) as L. cbn beta iota in L. constructor; cbn [se_s se_p se_who].
        -- exact (SS _ _ D).
        -- exact HP.
        -- exact HG2.
        -- rewrite map_app. cbn [map fst]. apply (Permutation_NoDup (Permutation_cons_append _ _)). constructor; [exact (exec_who _ _ _ _ _ Ex IN)|exact (xi_w _ _ _ _ _ _ I)].
        -- intros v x Hx. apply in_app_iff in Hx as [Hx|[Hx|[]]]; [now apply HO|]. injection Hx as <- <-. split; [exact (exec_place k _ _ _ _ _ PI Ep Ex)|exact (xallowed c k g hs hp s l p w t I Ep Ex Em)].
        -- intros x. rewrite map_app, cnt_app. cbn [map snd]. destruct (L x) as [_ L2]. pose proof (xi_r _ _ _ _ _ _ I x). lia.
        -- intros x Hx. rewrite (CT x Hx), LG, cnt_cons. pose proof (xi_c _ _ _ _ _ _ I x Hx). destruct (L x) as [L1 _]. lia.
      * injection E as <-. rewrite app_nil_r. constructor; cbn [se_s se_p se_who]; [exact (xi_s _ _ _ _ _ _ I)|exact HP|exact HG2|exact (xi_w _ _ _ _ _ _ I)|exact HO|exact (xi_r _ _ _ _ _ _ I)|].
        intros x Hx. rewrite (CT x Hx), LG, cnt_cons. pose proof (xi_c _ _ _ _ _ _ I x Hx). assert (NX : x <> t) by (intros ->; apply memb_in in Hx; congruence).
        assert (Z : cnt x [t] = 0) by (apply cnt_notin; intros [F|[]]; congruence). lia.
    + injection E as <-. rewrite app_nil_r. constructor; cbn [se_s se_p se_who]; [exact (xi_s _ _ _ _ _ _ I)|exact HP|exact HG2|exact (xi_w _ _ _ _ _ _ I)|exact HO|exact (xi_r _ _ _ _ _ _ I)|].
      intros x Hx. rewrite (CT x Hx), LG. exact (xi_c _ _ _ _ _ _ I x Hx).
Qed.
Lemma xinv_new c k g : xinv c k g [] [] seng_new.
Proof.
  constructor; cbn [seng_new se_s se_p se_who map]; [now left|reflexivity|intros q t []|constructor|intros w e []|reflexivity|]. intros t _. now rewrite census_new.
Qed.
Lemma xrun_inv c k g : wf g -> layering g (sc_mat c) -> forall ls hs hp s s', xinv c k g hs hp s -> xrun c k s ls = Some s' -> xinv c k g (stat_part c k s ls hs) (hp ++ xpool_part c k s ls) s'.
Proof.
  intros Hwf Hl. induction ls as [|l ls IH]; intros hs hp s s' I E; cbn [xrun stat_part xpool_part] in *; [injection E as <-; now rewrite app_nil_r|].
  destruct (xstep c k s l) as [s1|] eqn:E1; [|discriminate]. rewrite app_assoc. apply IH; [|exact E]. exact (xstep_inv c k g hs hp s l s1 Hwf Hl I E1).
Qed.
