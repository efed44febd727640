From Verif Require Import ParamConModel ParamConSpec ParamSpec ParamProofs.
From Coq Require Import Lia.
Local Open Scope nat_scope.
Local Open Scope list_scope.

(** * Traces *)
Inductive closed (t : nat) : list cev -> Prop :=
| cl_nil : closed t []
| cl_ret o a r : closed t r -> closed t (r ++ [ECall t o; EAcc t o a; ERet t o a]).
Lemma closed_turn t r : closed t r -> forall l, in_turn t l -> in_turn t (r ++ l).
Proof.
  induction 1 as [|o a r H IH]; intros l L; [exact L|]. rewrite <- app_assoc. apply IH. cbn. now constructor.
Qed.
(** What the trace of [t] is like when [t] is at [p]. *)
Definition at_pc (t : nat) (p : cpc) (l : list cev) : Prop :=
  match p with
  | Idle => closed t l
  | Want o | Look o | Change o => exists r, closed t r /\ l = r ++ [ECall t o]
  | Out o a => exists r, closed t r /\ l = r ++ [ECall t o; EAcc t o a]
  end.
Lemma at_pc_turn t p l : at_pc t p l -> in_turn t l.
Proof.
  destruct p; cbn; intro H.
  - rewrite <- (app_nil_r l). apply (closed_turn t l H). constructor.
  - destruct H as (r & C & ->). apply (closed_turn t r C). constructor.
  - destruct H as (r & C & ->). apply (closed_turn t r C). constructor.
  - destruct H as (r & C & ->). apply (closed_turn t r C). constructor.
  - destruct H as (r & C & ->). apply (closed_turn t r C). constructor.
Qed.
Lemma accs_snoc tr e : accs (tr ++ [e]) = accs tr ++ acc_of e.
Proof. unfold accs. rewrite flat_map_app. cbn. now rewrite app_nil_r. Qed.
Lemma ops_snoc tr e : c_ops (tr ++ [e]) = c_ops tr ++ map (fun x => snd (fst x)) (acc_of e).
Proof. unfold c_ops. now rewrite accs_snoc, map_app. Qed.
Lemma mine_snoc t tr e : filter (mine t) (tr ++ [e]) = filter (mine t) tr ++ (if mine t e then [e] else []).
Proof. rewrite filter_app. cbn. now destruct (mine t e). Qed.

(** * Invariant *)
Definition holds (p : cpc) : bool := match p with Look o | Change o | Out o _ => negb (is_get o) | _ => false end.
Record cinv (N : nat) (s : cst) : Prop := mk_cinv
  { ci_ps : cs_ps s = p_after (c_ops (cs_tr s));
    ci_ans : forall a t o v b, accs (cs_tr s) = a ++ (t, o, v) :: b -> v = p_answer (map (fun x => snd (fst x)) a) o;
    ci_pc : forall t, at_pc t (cs_pc s t) (filter (mine t) (cs_tr s));
    ci_lock : forall t, cs_lock s = Some t <-> holds (cs_pc s t) = true;
    ci_get : forall t o, cs_pc s t = Change o -> is_get o = false;
    ci_N : forall t, cs_pc s t <> Idle -> t < N }.
Arguments ci_ps {N s}. Arguments ci_ans {N s}. Arguments ci_pc {N s}. Arguments ci_lock {N s}. Arguments ci_get {N s}. Arguments ci_N {N s}.
Lemma cinv_new N : cinv N cs_new.
Proof.
  constructor; cbn; try easy.
  - intros a t o v b E. now destruct a.
  - intro t. constructor.
Qed.
Lemma pc_upd_at N s t p e tr' : cinv N s -> tr' = cs_tr s ++ e -> (forall x, In x e -> mine t x = true) -> (forall u x, u <> t -> In x e -> mine u x = false) ->
  at_pc t p (filter (mine t) (cs_tr s) ++ e) -> forall u, at_pc u (upd (cs_pc s) t p u) (filter (mine u) tr').
Proof.
  intros I -> M O A u. rewrite filter_app. destruct (Nat.eq_dec u t) as [->|NE].
  - rewrite upd_same. replace (filter (mine t) e) with e; [exact A|]. symmetry. clear - M. induction e as [|x e IH]; [reflexivity|]. cbn. rewrite M by now left. f_equal. apply IH. intros; apply M; now right.
  - rewrite upd_other by exact NE. replace (filter (mine u) e) with (@nil cev); [rewrite app_nil_r; apply (ci_pc I)|].
    symmetry. assert (X : forall x, In x e -> mine u x = false) by (intros; now apply O). clear - X. induction e as [|x e IH]; [reflexivity|]. cbn. rewrite X by now left. apply IH. intros; apply X; now right.
Qed.
Lemma effect_inv N s t o : cinv N s -> (cs_pc s t = Look o \/ cs_pc s t = Change o) -> cinv N (take_effect s t o).
Proof.
  intros I P. unfold take_effect. destruct (p_step (length (c_ops (cs_tr s))) (cs_ps s) o) as [ps a] eqn:E.
  assert (AP : exists r, closed t r /\ filter (mine t) (cs_tr s) = r ++ [ECall t o]) by (pose proof (ci_pc I t) as X; destruct P as [P|P]; rewrite P in X; exact X).
  assert (AN : a = p_answer (c_ops (cs_tr s)) o) by (unfold p_answer; rewrite <- (ci_ps I), E; reflexivity).
  constructor; cbn [cs_ps cs_lock cs_pc cs_tr].
  - rewrite ops_snoc. cbn [acc_of map]. rewrite p_after_snoc, <- (ci_ps I). cbn [fst snd]. now rewrite E.
  - rewrite accs_snoc. cbn [acc_of]. intros x t' o' v b X. apply snoc_split in X. destruct X as [(-> & -> & X)|(b' & -> & X)].
    + injection X as -> -> ->. exact AN.
    + exact (ci_ans I _ _ _ _ _ X).
  - eapply (pc_upd_at N s t); [exact I|reflexivity| | |].
    + intros x [<-|[]]. cbn. apply Nat.eqb_refl.
    + intros u x NE [<-|[]]. cbn. apply Nat.eqb_neq. congruence.
    + destruct AP as (r & C & ->). exists r. split; [exact C|]. now rewrite <- app_assoc.
  - intro u. destruct (Nat.eq_dec u t) as [->|NE]; [rewrite upd_same|rewrite upd_other by exact NE; apply (ci_lock I)].
    cbn [holds]. rewrite (ci_lock I). destruct P as [->| ->]; reflexivity.
  - intros u o'. destruct (Nat.eq_dec u t) as [->|NE]; [rewrite upd_same; discriminate|rewrite upd_other by exact NE; apply (ci_get I)].
  - intro u. destruct (Nat.eq_dec u t) as [->|NE]; [intros _; apply (ci_N I); destruct P as [->| ->]; discriminate|rewrite upd_other by exact NE; apply (ci_N I)].
Qed.
Lemma cstep_inv N s l s' : cinv N s -> cstep N s l = CRun s' -> cinv N s'.
Proof.
  intros I E. destruct l as [t o|t|t obj]; cbn [cstep] in E.
  - destruct ((t <? N) && allowed o) eqn:G; [|discriminate]. apply andb_prop in G. destruct G as [G _]. apply Nat.ltb_lt in G.
    destruct (cs_pc s t) eqn:P; try discriminate. injection E as <-. constructor; cbn [cs_ps cs_lock cs_pc cs_tr].
    + rewrite ops_snoc. cbn [acc_of map]. rewrite app_nil_r. apply I.
    + rewrite accs_snoc. cbn [acc_of]. rewrite app_nil_r. apply I.
    + eapply (pc_upd_at N s t); [exact I|reflexivity| | |].
      * intros x [<-|[]]. cbn. apply Nat.eqb_refl.
      * intros u x NE [<-|[]]. cbn. apply Nat.eqb_neq. congruence.
      * exists (filter (mine t) (cs_tr s)). split; [|reflexivity]. pose proof (ci_pc I t) as X. rewrite P in X. exact X.
    + intro u. destruct (Nat.eq_dec u t) as [->|NE]; [rewrite upd_same|rewrite upd_other by exact NE; apply (ci_lock I)].
      rewrite (ci_lock I), P. reflexivity.
    + intros u o'. destruct (Nat.eq_dec u t) as [->|NE]; [rewrite upd_same; discriminate|rewrite upd_other by exact NE; apply (ci_get I)].
    + intro u. destruct (Nat.eq_dec u t) as [->|NE]; [intros _; exact G|rewrite upd_other by exact NE; apply (ci_N I)].
  - destruct (cs_pc s t) as [|o|o|o|o a] eqn:P; [discriminate| | | |].
    + assert (X : exists lk, s' = mkCS (cs_ps s) lk (upd (cs_pc s) t (Look o)) (cs_tr s) /\ (if is_get o then lk = cs_lock s else cs_lock s = None /\ lk = Some t)).
      { destruct (is_get o).
        - destruct (writer N s t); [discriminate|]. injection E as <-. now exists (cs_lock s).
        - destruct (cs_lock s) eqn:L; [discriminate|]. destruct (writer N s t); [discriminate|]. injection E as <-. now exists (Some t). }
      destruct X as (lk & -> & LK). constructor; cbn [cs_ps cs_lock cs_pc cs_tr]; [apply I|apply I| | | |].
      * eapply (pc_upd_at N s t _ []); [exact I|now rewrite app_nil_r|easy|easy|]. rewrite app_nil_r. pose proof (ci_pc I t) as X. rewrite P in X. exact X.
      * intro u. destruct (is_get o) eqn:GO.
        -- rewrite LK. destruct (Nat.eq_dec u t) as [->|NE]; [rewrite upd_same|rewrite upd_other by exact NE; apply (ci_lock I)]. cbn [holds]. rewrite GO, (ci_lock I), P. reflexivity.
        -- destruct LK as [L0 ->]. destruct (Nat.eq_dec u t) as [->|NE]; [rewrite upd_same; cbn [holds]; now rewrite GO|rewrite upd_other by exact NE].
           split; [intro H; injection H as <-; now destruct NE|]. intro H. apply (ci_lock I) in H. congruence.
      * intros u o'. destruct (Nat.eq_dec u t) as [->|NE]; [rewrite upd_same; discriminate|rewrite upd_other by exact NE; apply (ci_get I)].
      * intro u. destruct (Nat.eq_dec u t) as [->|NE]; [intros _; apply (ci_N I); rewrite P; discriminate|rewrite upd_other by exact NE; apply (ci_N I)].
    + destruct (changes (ps_map (cs_ps s)) o) eqn:CH.
      * destruct (busy N s t); [discriminate|]. injection E as <-. unfold set_pc. constructor; cbn [cs_ps cs_lock cs_pc cs_tr]; [apply I|apply I| | | |].
        -- eapply (pc_upd_at N s t _ []); [exact I|now rewrite app_nil_r|easy|easy|]. rewrite app_nil_r. pose proof (ci_pc I t) as X. rewrite P in X. exact X.
        -- intro u. destruct (Nat.eq_dec u t) as [->|NE]; [rewrite upd_same|rewrite upd_other by exact NE; apply (ci_lock I)]. cbn [holds]. rewrite (ci_lock I), P. reflexivity.
        -- intros u o'. destruct (Nat.eq_dec u t) as [->|NE]; [rewrite upd_same|rewrite upd_other by exact NE; apply (ci_get I)]. intro H. injection H as <-. now destruct o.
        -- intro u. destruct (Nat.eq_dec u t) as [->|NE]; [intros _; apply (ci_N I); rewrite P; discriminate|rewrite upd_other by exact NE; apply (ci_N I)].
      * injection E as <-. apply effect_inv; auto.
    + injection E as <-. apply effect_inv; auto.
    + assert (X : s' = mkCS (cs_ps s) (if is_get o then cs_lock s else None) (upd (cs_pc s) t Idle) (cs_tr s ++ [ERet t o a])).
      { destruct o; try (injection E as <-; reflexivity). destruct a as [| | |[q|]| | | |]; try (injection E as <-; reflexivity). destruct (memb q _); [discriminate|]. injection E as <-. reflexivity. }
      subst s'. clear E. constructor; cbn [cs_ps cs_lock cs_pc cs_tr].
      * rewrite ops_snoc. cbn [acc_of map]. rewrite app_nil_r. apply I.
      * rewrite accs_snoc. cbn [acc_of]. rewrite app_nil_r. apply I.
      * eapply (pc_upd_at N s t); [exact I|reflexivity| | |].
        -- intros x [<-|[]]. cbn. apply Nat.eqb_refl.
        -- intros u x NE [<-|[]]. cbn. apply Nat.eqb_neq. congruence.
        -- pose proof (ci_pc I t) as X. rewrite P in X. destruct X as (r & C & ->). cbn [at_pc]. rewrite <- app_assoc. cbn. now constructor.
      * intro u. pose proof (ci_lock I t) as LT. rewrite P in LT. cbn [holds] in LT. destruct (is_get o) eqn:GO; cbn in LT.
        -- destruct (Nat.eq_dec u t) as [->|NE]; [rewrite upd_same; exact LT|rewrite upd_other by exact NE; apply (ci_lock I)].
        -- destruct (Nat.eq_dec u t) as [->|NE]; [rewrite upd_same; split; discriminate|rewrite upd_other by exact NE]. split; [discriminate|]. intro H. apply (ci_lock I) in H.
           rewrite (proj2 LT eq_refl) in H. congruence.
      * intros u o'. destruct (Nat.eq_dec u t) as [->|NE]; [rewrite upd_same; discriminate|rewrite upd_other by exact NE; apply (ci_get I)].
      * intro u. destruct (Nat.eq_dec u t) as [->|NE]; [rewrite upd_same; intro H; now destruct H|rewrite upd_other by exact NE; apply (ci_N I)].
  - destruct (existsb _ _); [|discriminate]. destruct (memb obj _); [discriminate|]. injection E as <-. exact I.
Qed.
Lemma crun_inv N ls : forall s s', cinv N s -> crun N s ls = CRun s' -> cinv N s'.
Proof.
  induction ls as [|l ls IH]; intros s s' I E; cbn in E; [injection E as <-; exact I|]. destruct (cstep N s l) as [s1| |] eqn:E1; try discriminate.
  eapply IH; [|exact E]. eapply cstep_inv; eassumption.
Qed.
Lemma crun_app N l1 : forall s l2, crun N s (l1 ++ l2) = match crun N s l1 with CRun s1 => crun N s1 l2 | x => x end.
Proof. induction l1 as [|l l1 IH]; intros s l2; [reflexivity|]. cbn. destruct (cstep N s l); [apply IH|reflexivity|reflexivity]. Qed.

(** Nobody else is at the map. *)
Lemma others_in N t u : In u (others N t) <-> u < N /\ u <> t.
Proof.
  unfold others. rewrite filter_In, in_seq. destruct (Nat.eqb_spec u t) as [->|NE]; cbn; split.
  - intros [_ X]. discriminate.
  - intros [_ X]. now destruct X.
  - intros [[_ X] _]. now split.
  - intros [X _]. split; [lia|reflexivity].
Qed.
Lemma writer_false N s t : (forall u, u <> t -> changing (cs_pc s u) = false) -> writer N s t = false.
Proof.
  intro H. unfold writer. destruct (existsb _ _) eqn:E; [|reflexivity]. apply existsb_exists in E. destruct E as (u & U & X). apply others_in in U.
  rewrite H in X by tauto. discriminate.
Qed.
Lemma busy_false N s t : (forall u, u <> t -> changing (cs_pc s u) = false /\ looking (cs_pc s u) = false) -> busy N s t = false.
Proof.
  intro H. unfold busy. destruct (existsb _ _) eqn:E; [|reflexivity]. apply existsb_exists in E. destruct E as (u & U & X). apply others_in in U.
  destruct (H u) as [H1 H2]; [tauto|]. rewrite H1, H2 in X. discriminate.
Qed.

(** * Without get *)
Definition op_of (p : cpc) : option pop := match p with Idle => None | Want o | Look o | Change o | Out o _ => Some o end.
Definition no_get (s : cst) : Prop := forall t o, op_of (cs_pc s t) = Some o -> is_get o = false.
Lemma op_upd s t p u o lk tr ps : (forall q, op_of p = Some q -> op_of (cs_pc s t) = Some q) -> op_of (cs_pc (mkCS ps lk (upd (cs_pc s) t p) tr) u) = Some o -> op_of (cs_pc s u) = Some o.
Proof. cbn. intros H. destruct (Nat.eq_dec u t) as [->|NE]; [rewrite upd_same; apply H|now rewrite upd_other by exact NE]. Qed.
Lemma effect_pc s t o : cs_pc (take_effect s t o) = upd (cs_pc s) t (Out o (snd (p_step (length (c_ops (cs_tr s))) (cs_ps s) o))).
Proof. unfold take_effect. now destruct (p_step _ _ _). Qed.
(** The operations under way are those that were, or the one just called. *)
Lemma cstep_ops N s l s' u o : cstep N s l = CRun s' -> op_of (cs_pc s' u) = Some o -> op_of (cs_pc s u) = Some o \/ l = LCall u o.
Proof.
  intros E H. destruct l as [t q|t|t obj]; cbn [cstep] in E.
  - destruct (_ && _); [|discriminate]. destruct (cs_pc s t) eqn:P; try discriminate. injection E as <-. cbn in H.
    destruct (Nat.eq_dec u t) as [->|NE]; [rewrite upd_same in H; injection H as <-; now right|rewrite upd_other in H by exact NE; now left].
  - left. destruct (cs_pc s t) as [|q|q|q|q a] eqn:P; [discriminate| | | |].
    + destruct (is_get q); [|destruct (cs_lock s); [discriminate|]]; (destruct (writer N s t); [discriminate|]); injection E as <-;
        (eapply op_upd; [|exact H]; rewrite P; auto).
    + destruct (changes _ q); [destruct (busy N s t); [discriminate|]|]; injection E as <-.
      * eapply op_upd; [|exact H]. rewrite P; auto.
      * rewrite effect_pc in H. destruct (Nat.eq_dec u t) as [->|NE]; [rewrite upd_same in H; now rewrite P|now rewrite upd_other in H by exact NE].
    + injection E as <-. rewrite effect_pc in H. destruct (Nat.eq_dec u t) as [->|NE]; [rewrite upd_same in H; now rewrite P|now rewrite upd_other in H by exact NE].
    + assert (X : exists lk, s' = mkCS (cs_ps s) lk (upd (cs_pc s) t Idle) (cs_tr s ++ [ERet t q a])).
      { destruct q; try (injection E as <-; eauto; fail). destruct a as [| | |[z|]| | | |]; try (injection E as <-; eauto; fail). destruct (memb z _); [discriminate|]. injection E as <-. eauto. }
      destruct X as (lk & ->). eapply op_upd; [|exact H]. discriminate.
  - destruct (existsb _ _); [|discriminate]. destruct (memb obj _); [discriminate|]. injection E as <-. now left.
Qed.
(** Only the holder of the mutex is at the map. *)
Lemma alone N s t : cinv N s -> no_get s -> (cs_lock s = None \/ cs_lock s = Some t) -> forall u, u <> t -> changing (cs_pc s u) = false /\ looking (cs_pc s u) = false.
Proof.
  intros I G L u NE. pose proof (ci_lock I u) as LU. pose proof (G u) as GU.
  destruct (cs_pc s u); cbn in *; auto; specialize (GU _ eq_refl); rewrite GU in LU; cbn in LU; destruct LU as [_ LU]; specialize (LU eq_refl); destruct L; congruence.
Qed.
Lemma locked_step N s l : cinv N s -> no_get s -> (forall t obj, l <> LUse t obj) -> cstep N s l <> CUndef.
Proof.
  intros I G NU E. destruct l as [t q|t|t obj]; cbn [cstep] in E; [| |now destruct (NU t obj)].
  - destruct (_ && _); [|discriminate]. destruct (cs_pc s t); discriminate.
  - pose proof (ci_lock I t) as LT. pose proof (G t) as GT. destruct (cs_pc s t) as [|q|q|q|q a] eqn:P; [discriminate| | |discriminate|].
    + rewrite (GT _ eq_refl) in E. destruct (cs_lock s) eqn:L; [discriminate|].
      rewrite writer_false in E; [discriminate|]. intros u NE. apply (alone N s t I G (or_introl L) u NE).
    + cbn in LT. rewrite (GT _ eq_refl) in LT. destruct (changes _ q); [|discriminate].
      rewrite busy_false in E; [discriminate|]. intros u NE. apply (alone N s t I G (or_intror (proj2 LT eq_refl)) u NE).
    + specialize (GT _ eq_refl). destruct q; try discriminate.
Qed.
Lemma locked_run N ls : forall s, cinv N s -> no_get s -> (forall o, calls ls o -> is_get o = false) -> (forall t obj, ~ In (LUse t obj) ls) -> crun N s ls <> CUndef.
Proof.
  induction ls as [|l ls IH]; intros s I G C U; [discriminate|]. cbn. destruct (cstep N s l) as [s1| |] eqn:E; [| |discriminate].
  - apply IH.
    + eapply cstep_inv; eassumption.
    + intros t o H. destruct (cstep_ops N s l s1 t o E H) as [H1| ->]; [exact (G t o H1)|]. apply C. exists t. now left.
    + intros o (t & X). apply C. exists t. now right.
    + intros t obj X. apply (U t obj). now right.
  - intros _. revert E. apply locked_step; [exact I|exact G|]. intros t obj ->. apply (U t obj). now left.
Qed.

(** * All parameters prepared *)
Definition harmless (m : pmap) (o : pop) : Prop := changes m o = false.
Definition calm (m : pmap) (f : list nat) (s : cst) : Prop :=
  ps_map (cs_ps s) = m /\ ps_freed (cs_ps s) = f /\ (forall t o, op_of (cs_pc s t) = Some o -> allowed o = true /\ harmless m o) /\ (forall t, changing (cs_pc s t) = false) /\
  (forall t e k ty obj, cs_pc s t = Out (PGet e k ty) (AObj (Some obj)) -> ~ In obj f).
Lemma harmless_step n s o : allowed o = true -> harmless (ps_map s) o -> ps_map (fst (p_step n s o)) = ps_map s /\ ps_freed (fst (p_step n s o)) = ps_freed s.
Proof.
  unfold harmless. destruct o; cbn; try discriminate; intros _; unfold pm_create, pm_create_py, w_get, pm_remove; try (destruct (pfind k (ps_map s)); [easy|discriminate]); try easy.
  - destruct (pm_get k t s); easy.
  - destruct (pfind k (ps_map s)); [discriminate|easy].
Qed.
Lemma calm_step N s l s' m f : calm m f s -> (forall k p, In (k, p) m -> ~ In (p_obj p) f) -> (forall t o, l = LCall t o -> harmless m o) ->
  cstep N s l = CRun s' -> calm m f s'.
Proof.
  intros (HM & HF & HO & HC & HG) MF HL E.
  assert (OPS : forall t o, op_of (cs_pc s' t) = Some o -> allowed o = true /\ harmless m o).
  { intros t o H. destruct (cstep_ops N s l s' t o E H) as [H1| ->]; [exact (HO t o H1)|]. split; [|now apply (HL t)].
    cbn [cstep] in E. destruct (_ && _) eqn:A; [|discriminate]. now apply andb_prop in A. }
  assert (EFF : forall t q, cs_pc s t = Look q -> s' = take_effect s t q -> calm m f s').
  { intros t q P ->. destruct (HO t q) as [A1 A2]; [now rewrite P|]. rewrite <- HM in A2.
    destruct (harmless_step (length (c_ops (cs_tr s))) (cs_ps s) q A1 A2) as [B1 B2].
    unfold calm. rewrite effect_pc. assert (X : cs_ps (take_effect s t q) = fst (p_step (length (c_ops (cs_tr s))) (cs_ps s) q)) by (unfold take_effect; now destruct (p_step _ _ _)).
    rewrite X, B1, B2. rewrite effect_pc in OPS. split; [exact HM|]. split; [exact HF|]. split; [exact OPS|]. split.
    - intro u. destruct (Nat.eq_dec u t) as [->|NE]; [now rewrite upd_same|rewrite upd_other by exact NE; apply HC].
    - intros u e k ty obj. destruct (Nat.eq_dec u t) as [->|NE]; [rewrite upd_same|rewrite upd_other by exact NE; apply HG]. intro H. injection H as -> H.
      cbn [p_step] in H. unfold w_get, pm_get in H. rewrite HM in H. destruct (pfind k m) as [p|] eqn:F; [|discriminate]. destruct (Nat.eqb ty (p_type p)); [|discriminate].
      injection H as <-. apply (MF k). now apply pfind_in. }
  assert (MOV : forall t p lk tr, changing p = false -> (forall o a, p <> Out o a) -> s' = mkCS (cs_ps s) lk (upd (cs_pc s) t p) tr -> calm m f s').
  { intros t p lk tr CH NO ->. unfold calm. cbn [cs_ps cs_pc]. split; [exact HM|]. split; [exact HF|]. split; [exact OPS|]. split.
    - intro u. destruct (Nat.eq_dec u t) as [->|NE]; [now rewrite upd_same|rewrite upd_other by exact NE; apply HC].
    - intros u e k ty obj. destruct (Nat.eq_dec u t) as [->|NE]; [rewrite upd_same|rewrite upd_other by exact NE; apply HG]. intro H. now destruct (NO _ _ H). }
  destruct l as [t q|t|t obj]; cbn [cstep] in E.
  - destruct (_ && _); [|discriminate]. destruct (cs_pc s t) eqn:P; try discriminate. injection E as <-. eapply MOV; [| |reflexivity]; [reflexivity|discriminate].
  - destruct (cs_pc s t) as [|q|q|q|q a] eqn:P; [discriminate| | | |].
    + destruct (is_get q); [|destruct (cs_lock s); [discriminate|]]; (destruct (writer N s t); [discriminate|]); injection E as <-; (eapply MOV; [| |reflexivity]; [reflexivity|discriminate]).
    + destruct (HO t q) as [_ A2]; [now rewrite P|]. unfold harmless in A2. rewrite HM, A2 in E. injection E as <-. now apply (EFF t q).
    + specialize (HC t). rewrite P in HC. discriminate.
    + assert (X : exists lk, s' = mkCS (cs_ps s) lk (upd (cs_pc s) t Idle) (cs_tr s ++ [ERet t q a])).
      { destruct q; try (injection E as <-; eauto; fail). destruct a as [| | |[z|]| | | |]; try (injection E as <-; eauto; fail). destruct (memb z _); [discriminate|]. injection E as <-. eauto. }
      destruct X as (lk & X). eapply MOV; [| |exact X]; [reflexivity|discriminate].
  - destruct (existsb _ _); [|discriminate]. destruct (memb obj _); [discriminate|]. injection E as <-. now split; [|split; [|split; [|split]]].
Qed.
Lemma calm_safe N s l m f : calm m f s -> (forall t obj, l = LUse t obj -> ~ In obj f) -> cstep N s l <> CUndef.
Proof.
  intros (HM & HF & HO & HC & HG) HU E. destruct l as [t q|t|t obj]; cbn [cstep] in E.
  - destruct (_ && _); [|discriminate]. destruct (cs_pc s t); discriminate.
  - destruct (cs_pc s t) as [|q|q|q|q a] eqn:P; [discriminate| | |discriminate|].
    + rewrite (writer_false N s t) in E by (intros; apply HC). destruct (is_get q); [discriminate|]. destruct (cs_lock s); discriminate.
    + destruct (HO t q) as [_ A2]; [now rewrite P|]. unfold harmless in A2. rewrite HM, A2 in E. discriminate.
    + destruct q; try discriminate. destruct a as [| | |[z|]| | | |]; try discriminate. destruct (memb z _) eqn:M; [|discriminate]. apply memb_in in M. rewrite HF in M. exact (HG _ _ _ _ _ P M).
  - destruct (existsb _ _); [|discriminate]. destruct (memb obj _) eqn:M; [|discriminate]. apply memb_in in M. rewrite HF in M. exact (HU t obj eq_refl M).
Qed.
Lemma effect_tr s t o : cs_tr (take_effect s t o) = cs_tr s ++ [EAcc t o (snd (p_step (length (c_ops (cs_tr s))) (cs_ps s) o))].
Proof. unfold take_effect. now destruct (p_step _ _ _). Qed.
(** One step adds at most one effect, which is answered from the state before. *)
Lemma cstep_accs N s l s' : cstep N s l = CRun s' -> exists d, accs (cs_tr s') = accs (cs_tr s) ++ d /\
  forall t o a, In (t, o, a) d -> a = snd (p_step (length (c_ops (cs_tr s))) (cs_ps s) o).
Proof.
  intro E. destruct l as [t q|t|t obj]; cbn [cstep] in E.
  - destruct (_ && _); [|discriminate]. destruct (cs_pc s t) eqn:P; try discriminate. injection E as <-. exists []. cbn [cs_tr]. rewrite accs_snoc. now split.
  - destruct (cs_pc s t) as [|q|q|q|q a] eqn:P; [discriminate| | | |].
    + destruct (is_get q); [|destruct (cs_lock s); [discriminate|]]; (destruct (writer N s t); [discriminate|]); injection E as <-; exists []; (split; [now rewrite app_nil_r|easy]).
    + destruct (changes _ q); [destruct (busy N s t); [discriminate|]|]; injection E as <-.
      * exists []. split; [now rewrite app_nil_r|easy].
      * rewrite effect_tr, accs_snoc. eexists. split; [reflexivity|]. cbn. intros t' o' a' [X|[]]. now injection X as <- <- <-.
    + injection E as <-. rewrite effect_tr, accs_snoc. eexists. split; [reflexivity|]. cbn. intros t' o' a' [X|[]]. now injection X as <- <- <-.
    + assert (X : cs_tr s' = cs_tr s ++ [ERet t q a]).
      { destruct q; try (injection E as <-; reflexivity). destruct a as [| | |[z|]| | | |]; try (injection E as <-; reflexivity). destruct (memb z _); [discriminate|]. injection E as <-. reflexivity. }
      rewrite X, accs_snoc. exists []. now split.
  - destruct (existsb _ _); [|discriminate]. destruct (memb obj _); [discriminate|]. injection E as <-. exists []. split; [now rewrite app_nil_r|easy].
Qed.
Lemma calm_run N m f ls : (forall k p, In (k, p) m -> ~ In (p_obj p) f) -> forall s, calm m f s -> (forall o, calls ls o -> harmless m o) -> (forall t obj, In (LUse t obj) ls -> ~ In obj f) ->
  crun N s ls <> CUndef /\ forall s', crun N s ls = CRun s' -> calm m f s' /\ exists d, accs (cs_tr s') = accs (cs_tr s) ++ d /\
    forall t e k ty a, In (t, PGet e k ty, a) d -> a = AObj (match pfind k m with Some p => if Nat.eqb ty (p_type p) then Some (p_obj p) else None | None => None end).
Proof.
  intro MF. induction ls as [|l ls IH]; intros s CA C U.
  - split; [discriminate|]. intros s' E. injection E as <-. split; [exact CA|]. exists []. split; [now rewrite app_nil_r|easy].
  - cbn. destruct (cstep N s l) as [s1| |] eqn:E.
    + assert (CA1 : calm m f s1) by (eapply calm_step; [exact CA|exact MF| |exact E]; intros t o ->; apply C; exists t; now left).
      destruct (IH s1 CA1) as [IH1 IH2]; [intros o (t & X); apply C; exists t; now right|intros t obj X; apply (U t); now right|]. split; [exact IH1|]. intros s' E'. destruct (IH2 s' E') as (CA' & d & D & A).
      split; [exact CA'|]. destruct (cstep_accs N s l s1 E) as (d1 & D1 & A1). exists (d1 ++ d). split; [now rewrite D, D1, app_assoc|]. intros t e k ty a X. apply in_app_iff in X. destruct X as [X|X]; [|now apply (A t e)].
      rewrite (A1 _ _ _ X). cbn [p_step]. unfold w_get, pm_get. destruct CA as (-> & _). destruct (pfind k m) as [p|]; [destruct (Nat.eqb ty (p_type p))|]; reflexivity.
    + exfalso. revert E. apply (calm_safe N s l m f CA). intros t obj ->. apply (U t). now left.
    + split; discriminate.
Qed.

(** * Progress *)
Definition left_of (p : cpc) : nat := match p with Idle => 0 | Want _ => 4 | Look _ => 3 | Change _ => 2 | Out _ _ => 1 end.
Definition total (N : nat) (s : cst) : nat := list_sum (map (fun t => left_of (cs_pc s t)) (seq 0 N)).
Lemma sum_upd (g : nat -> cpc) t p l : NoDup l -> In t l -> list_sum (map (fun u => left_of (upd g t p u)) l) + left_of (g t) = list_sum (map (fun u => left_of (g u)) l) + left_of p.
Proof.
  induction l as [|x l IH]; intros ND IN; [destruct IN|]. apply NoDup_cons_iff in ND. destruct ND as [NI ND]. cbn [map list_sum fold_right]. unfold list_sum in *. cbn [fold_right]. destruct (Nat.eq_dec x t) as [->|NE].
  - rewrite upd_same. replace (map (fun u => left_of (upd g t p u)) l) with (map (fun u => left_of (g u)) l); [lia|]. apply map_ext_in. intros u U. rewrite upd_other; [reflexivity|]. intros ->. contradiction.
  - rewrite upd_other by exact NE. destruct IN as [->|IN]; [now destruct NE|]. specialize (IH ND IN). lia.
Qed.
Lemma go_less N s t s' : cinv N s -> cstep N s (LGo t) = CRun s' -> total N s' < total N s.
Proof.
  intros I E. assert (X : exists p, cs_pc s' = upd (cs_pc s) t p /\ left_of p < left_of (cs_pc s t)).
  { cbn [cstep] in E. destruct (cs_pc s t) as [|q|q|q|q a] eqn:P; [discriminate| | | |].
    - destruct (is_get q); [|destruct (cs_lock s); [discriminate|]]; (destruct (writer N s t); [discriminate|]); injection E as <-; exists (Look q); (split; [reflexivity|cbn; lia]).
    - destruct (changes _ q); [destruct (busy N s t); [discriminate|]|]; injection E as <-.
      + exists (Change q). split; [reflexivity|cbn; lia].
      + rewrite effect_pc. eexists. split; [reflexivity|cbn; lia].
    - injection E as <-. rewrite effect_pc. eexists. split; [reflexivity|cbn; lia].
    - exists Idle. split; [|cbn; lia]. destruct q; try (injection E as <-; reflexivity). destruct a as [| | |[z|]| | | |]; try (injection E as <-; reflexivity). destruct (memb z _); [discriminate|]. injection E as <-. reflexivity. }
  destruct X as (p & PC & LT). assert (TN : t < N) by (apply (ci_N I); intro Z; rewrite Z in LT; cbn in LT; lia).
  unfold total. rewrite PC. pose proof (sum_upd (cs_pc s) t p (seq 0 N) (seq_NoDup N 0)) as S. rewrite in_seq in S. specialize (S ltac:(lia)). lia.
Qed.
Lemma go_run N ts : forall s s', cinv N s -> crun N s (map LGo ts) = CRun s' -> length ts + total N s' <= total N s.
Proof.
  induction ts as [|t ts IH]; intros s s' I E; cbn [map crun length] in *; [injection E as <-; lia|]. destruct (cstep N s (LGo t)) as [s1| |] eqn:E1; try discriminate.
  pose proof (go_less N s t s1 I E1). pose proof (IH s1 s' (cstep_inv _ _ _ _ I E1) E). lia.
Qed.
Lemma total_bound N s : total N s <= 4 * N.
Proof.
  unfold total. assert (H : forall l, list_sum (map (fun t => left_of (cs_pc s t)) l) <= 4 * length l).
  { induction l as [|x l IH]; [cbn; lia|]. cbn [map length]. change (left_of (cs_pc s x) + list_sum (map (fun t => left_of (cs_pc s t)) l) <= 4 * S (length l)). destruct (cs_pc s x); cbn [left_of]; lia. }
  specialize (H (seq 0 N)). now rewrite seq_length in H.
Qed.
Lemma go_enabled N s t : cinv N s -> cs_pc s t <> Idle -> exists u, cstep N s (LGo u) <> CStuck.
Proof.
  intros I NI. assert (F : forall u, (exists o, cs_pc s u = Look o) \/ (exists o, cs_pc s u = Change o) \/ (exists o a, cs_pc s u = Out o a) -> cstep N s (LGo u) <> CStuck).
  { intros u [(o & P)|[(o & P)|(o & a & P)]]; cbn [cstep]; rewrite P; [destruct (changes _ o); [destruct (busy N s u)|]; discriminate|discriminate|].
    destruct o; try discriminate. destruct a as [| | |[z|]| | | |]; try discriminate. destruct (memb z _); discriminate. }
  destruct (cs_pc s t) as [|q|q|q|q a] eqn:P; [now destruct NI| |exists t; apply F; eauto|exists t; apply F; eauto|exists t; apply F; eauto].
  destruct (cs_lock s) as [u|] eqn:L.
  - exists u. apply F. apply (ci_lock I) in L. destruct (cs_pc s u); cbn in L; try discriminate; eauto.
  - exists t. cbn [cstep]. rewrite P, L. destruct (is_get q); destruct (writer N s t); discriminate.
Qed.
