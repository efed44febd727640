(** Proofs for C115. *)
From Verif Require Import GraphModel GraphSpec TopoProofs StaticProofs StatusProofs DynModel DynInv DynProofs DynTerm GraphProps DynProps.
From Verif Require Export LeftSpec.
From Coq Require Import Lia.
Local Open Scope nat_scope.
Local Open Scope list_scope.

(** * Counting *)
Lemma n_starts_app e a b : n_starts e (a ++ b) = n_starts e a + n_starts e b.
Proof. unfold n_starts. now rewrite filter_app, app_length. Qed.
Lemma n_ends_app e a b : n_ends e (a ++ b) = n_ends e a + n_ends e b.
Proof. unfold n_ends. now rewrite filter_app, app_length. Qed.
Lemma n_starts_ev e d : n_starts e (map VEv d) = cnt e (starts d).
Proof.
  induction d as [|[x|x r] d IH]; [reflexivity| |].
  - change (n_starts e ([VEv (GStart x)] ++ map VEv d) = cnt e (x :: starts d)). rewrite n_starts_app, IH, cnt_cons. unfold n_starts. cbn. destruct (Nat.eqb x e); reflexivity.
  - change (n_starts e ([VEv (GFinish x r)] ++ map VEv d) = cnt e (starts d)). now rewrite n_starts_app, IH.
Qed.
Lemma n_ends_ev e d : n_ends e (map VEv d) = cnt e (map fst (finishes d)).
Proof.
  induction d as [|[x|x r] d IH]; [reflexivity| |].
  - change (n_ends e ([VEv (GStart x)] ++ map VEv d) = cnt e (map fst (finishes d))). now rewrite n_ends_app, IH.
  - change (n_ends e ([VEv (GFinish x r)] ++ map VEv d) = cnt e (x :: map fst (finishes d))). rewrite n_ends_app, IH, cnt_cons. unfold n_ends. cbn. destruct (Nat.eqb x e); reflexivity.
Qed.

(** * One action of the engine *)
Lemma op_events c sh o r sh' new enq nt : op_sem c sh o r = (sh', new, enq, nt) ->
  exists d, sh_tr sh' = sh_tr sh ++ d /\ length d <= 1 /\ (forall e, cnt e (starts d) + f_body e o = sumf (f_body e) (new ++ map OExec enq) + cnt e (map fst (finishes d))) /\
            (forall e, In (GStart e) d -> o = OExec e) /\ (harmless_op c o -> d = []).
Proof.
  intros H. destruct o as [e a|e|e|e|e r0| |e|e l res|e|]; cbn [op_sem] in H.
  3: { inversion H; subst; clear H. exists [GStart e]. split; [reflexivity|]. split; [auto|]. split; [intros x; cbn; rewrite cnt_cons; cbn; lia|]. split; [intros x [X|[]]; now injection X as ->|]. intros [X|[X|(y & X & _)]]; discriminate X. }
  3: { assert (T : sh_tr sh' = sh_tr sh ++ [GFinish e r] /\ forall x, sumf (f_body x) (new ++ map OExec enq) = 0) by (destruct (isErr r); inversion H; subst; now split). destruct T as [T N]. exists [GFinish e r]. split; [exact T|]. split; [auto|].
       split; [intros x; rewrite N; cbn; rewrite cnt_cons; cbn; lia|]. split; [intros x [X|[]]; discriminate X|]. intros [X|[X|(y & X & _)]]; discriminate X. }
  all: assert (T : sh_tr sh' = sh_tr sh /\ forall x, sumf (f_body x) (new ++ map OExec enq) = 0);
       [repeat match type of H with
       | context [if ?b then _ else _] => destruct b eqn:?
       | context [match calc_shape ?a ?b ?x with _ => _ end] => destruct (calc_shape a b x)
       | context [match ?l with [] => _ | _ :: _ => _ end] => destruct l
       | context [match ?x with Some _ => _ | None => _ end] => destruct x
       end; inversion H; subst; clear H; (split; [reflexivity|]); intros x; rewrite ?app_nil_r; try reflexivity; try (apply sumf_zero; intros o Ho; apply in_map_iff in Ho as (y & <- & _); reflexivity)
       |destruct T as [T N]; exists []; rewrite app_nil_r; (split; [exact T|]); (split; [auto|]); (split; [intros x; rewrite N; reflexivity|]); (split; [intros x []|reflexivity])].
  all: try (apply sumf_zero; intros o [<-|Ho]; [reflexivity|apply in_map_iff in Ho as (y & <- & _); reflexivity]).
Qed.
Lemma fronts_body c e : sumf (f_body e) (front_ops (c_g c)) = 0.
Proof. unfold front_ops. apply sumf_zero. intros o Ho. apply in_map_iff in Ho as (y & <- & _). reflexivity. Qed.
Lemma eng_events c s l s' : l <> LRun -> dstep c s l = Some s' ->
  exists d, sh_tr (d_sh s') = sh_tr (d_sh s) ++ d /\ length d <= 1 /\ (forall e, cnt e (starts d) + sumf (f_body e) (all_ops s) = sumf (f_body e) (all_ops s') + cnt e (map fst (finishes d))) /\
            (forall e, In (GStart e) d -> In (OExec e) (all_ops s)) /\ (harmless c (all_ops s) -> d = []).
Proof.
  intros N H.
  assert (W : is_work l s s' c -> exists d, sh_tr (d_sh s') = sh_tr (d_sh s) ++ d /\ length d <= 1 /\ (forall e, cnt e (starts d) + sumf (f_body e) (all_ops s) = sumf (f_body e) (all_ops s') + cnt e (map fst (finishes d))) /\
            (forall e, In (GStart e) d -> In (OExec e) (all_ops s)) /\ (harmless c (all_ops s) -> d = [])).
  { intros (o & r & sh' & new & enq & nt & B0 & E & _ & Es & P & P' & _). destruct (op_events c _ _ _ _ _ _ _ E) as (d & T & L & C & S & Hh). subst sh'. exists d. split; [exact T|]. split; [exact L|]. split; [|split].
    - intros e. rewrite (sumf_perm _ _ _ P), (sumf_perm _ _ _ P'). cbn [sumf]. specialize (C e). rewrite sumf_app in C. rewrite !sumf_app. lia.
    - intros e He. apply (Permutation_in _ (Permutation_sym P)). left. now apply S.
    - intros X. apply Hh, X. apply (Permutation_in _ (Permutation_sym P)). now left. }
  assert (Z : sh_tr (d_sh s') = sh_tr (d_sh s) -> (forall e, sumf (f_body e) (all_ops s') = sumf (f_body e) (all_ops s)) -> exists d, sh_tr (d_sh s') = sh_tr (d_sh s) ++ d /\ length d <= 1 /\ (forall e, cnt e (starts d) + sumf (f_body e) (all_ops s) = sumf (f_body e) (all_ops s') + cnt e (map fst (finishes d))) /\
            (forall e, In (GStart e) d -> In (OExec e) (all_ops s)) /\ (harmless c (all_ops s) -> d = [])).
  { intros T B. exists []. rewrite app_nil_r. split; [exact T|]. split; [auto|]. split; [intros e; rewrite B; cbn; lia|]. split; [intros e []|reflexivity]. }
  destruct l as [|r|i r|i|]; [contradiction| | | |].
  - destruct (d_main s) as [| | |[|o l]|[|n]| | | | | |] eqn:E.
    5: { apply W. eapply mrun_step; [exact E|right; exact I|exact H]. }
    all: apply Z; cbn [dstep] in H; rewrite E in H; inversion H; subst; clear H; unfold all_ops; cbn [d_sh d_act d_main d_pool]; try rewrite E; try reflexivity; try (intros e; reflexivity).
    + destruct (isOK (sh_stat (d_sh s))); reflexivity.
    + intros e. cbn [main_ops]. rewrite !sumf_app, fronts_body. reflexivity.
    + intros e. destruct (Nat.leb _ _); reflexivity.
    + intros e. destruct (Nat.leb _ _); reflexivity.
    + intros e. destruct (isErr _); reflexivity.
  - apply W. now apply work_step with i r.
  - apply pick_step in H as (H1 & _ & _ & P & _). apply Z; [now rewrite H1|]. intros e. now apply sumf_perm.
  - apply Z; cbn [dstep] in H; destruct (d_main s) eqn:E; try discriminate; inversion H; subst; [reflexivity|]. intros e. unfold all_ops. cbn. now rewrite E.
Qed.
Lemma fresh_is c s l s' : l <> LRun -> dstep c s l = Some s' -> exists d, sh_tr (d_sh s') = sh_tr (d_sh s) ++ d /\ fresh_events (d_sh s) (d_sh s') = map VEv d /\ length d <= 1 /\
  (forall e, cnt e (starts d) + sumf (f_body e) (all_ops s) = sumf (f_body e) (all_ops s') + cnt e (map fst (finishes d))) /\ (forall e, In (GStart e) d -> In (OExec e) (all_ops s)) /\ (harmless c (all_ops s) -> d = []).
Proof.
  intros N H. destruct (eng_events c s l s' N H) as (d & T & L & X). exists d. split; [exact T|]. split; [|now split]. unfold fresh_events. rewrite T. f_equal. rewrite skipn_app, skipn_all, Nat.sub_diag. reflexivity.
Qed.
(** * Where the engine is *)
Lemma idle_stays c s l s' : l <> LRun -> d_main s = MIdle -> dstep c s l = Some s' -> d_main s' = MIdle /\ d_out s' = d_out s.
Proof.
  intros N M H. destruct l as [|r|i r|i|]; [contradiction|cbn [dstep] in H; rewrite M in H; discriminate H| | |cbn [dstep] in H; rewrite M in H; discriminate H].
  - cbn [dstep] in H. destruct (nth_error (d_act s) i) as [[|o rest]|]; try discriminate. destruct (op_enabled _ _); [|discriminate]. destruct (op_sem c (d_sh s) o r) as [[[sh' new] enq] nt]. inversion H; subst. cbn. now rewrite M.
  - cbn [dstep] in H. destruct (Nat.ltb _ _); [|discriminate]. destruct (nth_error _ _); [|discriminate]. inversion H; subst. now split.
Qed.
Lemma wake_busy nt m : m <> MIdle -> wake nt m <> MIdle.
Proof. destruct m; cbn; try discriminate; try (now intros X); destruct nt; discriminate. Qed.
Lemma in_run c s l s' : l <> LRun -> d_main s <> MIdle -> d_out s = None -> dstep c s l = Some s' -> (d_main s' <> MIdle /\ d_out s' = None) \/ (d_main s' = MIdle /\ exists r, d_out s' = Some r).
Proof.
  intros N M O H. destruct l as [|r|i r|i|]; [contradiction| | | |].
  - cbn [dstep] in H. destruct (d_main s) as [| | |[|o l]|[|n]| | | | | |] eqn:E; try contradiction; try discriminate; try (destruct (op_sem c (d_sh s) o r) as [[[sh' new] enq] nt]); inversion H; subst; cbn; try (left; split; [discriminate|assumption]); try (right; split; [reflexivity|now eexists]).
    all: left; split; [|assumption]; try destruct (Nat.leb _ _); try destruct (isErr _); discriminate.
  - cbn [dstep] in H. destruct (nth_error (d_act s) i) as [[|o rest]|]; try discriminate. destruct (op_enabled _ _); [|discriminate]. destruct (op_sem c (d_sh s) o r) as [[[sh' new] enq] nt]. inversion H; subst. cbn. left. split; [now apply wake_busy|assumption].
  - cbn [dstep] in H. destruct (Nat.ltb _ _); [|discriminate]. destruct (nth_error _ _); [|discriminate]. inversion H; subst. left. now split.
  - cbn [dstep] in H. destruct (d_main s) eqn:E; try discriminate. inversion H; subst. left. split; [discriminate|assumption].
Qed.

(** * Whatever happens *)
Definition away (h : lph) : bool := match h with HDes _ | HOver => true | _ => false end.
Record gen (c : dcfg) (shared : bool) (s : lst) : Prop := {
  g_bodies : forall e, n_starts e (l_log s) = sumf (f_body e) (all_ops (l_e s)) + n_ends e (l_log s);
  g_in : l_h s = HIn -> d_main (l_e s) <> MIdle /\ d_out (l_e s) = None;
  g_out : l_h s <> HIn -> d_main (l_e s) = MIdle;
  g_gone : shared = false -> away (l_h s) = true -> d_act (l_e s) = [] /\ d_pool (l_e s) = [];
  g_tr : forall x, In x (sh_tr (d_sh (l_e s))) -> In (VEv x) (l_log s)
}.
Lemma dead_step c s l s' : d_main s = MIdle -> d_act s = [] -> d_pool s = [] -> l <> LRun -> dstep c s l = Some s' -> False.
Proof.
  intros M A P N H. destruct l as [|r|i r|i|]; [contradiction| | | |]; cbn [dstep] in H; rewrite ?M, ?A, ?P in H; try discriminate.
  - destruct i; discriminate.
  - destruct (Nat.ltb _ _); [destruct i|]; discriminate.
Qed.
(** The shape of an action of the system. *)
Lemma lstep_eng c shared s x s' : lstep c shared s (CEng x) = Some s' -> exists e, x <> LRun /\ dstep c (l_e s) x = Some e /\
  s' = mkL e (match l_h s, d_out e with HIn, Some r => HBack r | _, _ => l_h s end) (l_log s ++ fresh_events (d_sh (l_e s)) (d_sh e)).
Proof.
  intros H. assert (N : x <> LRun) by (intros ->; cbn [lstep] in H; destruct (l_h s); discriminate H). assert (H' : match dstep c (l_e s) x with None => None | Some e => Some (mkL e (match l_h s, d_out e with HIn, Some r => HBack r | _, _ => l_h s end) (l_log s ++ fresh_events (d_sh (l_e s)) (d_sh e))) end = Some s').
  { rewrite <- H. unfold lstep. destruct x; [contradiction|reflexivity..]. }
  destruct (dstep c (l_e s) x) as [e|]; [|discriminate H']. injection H' as <-. exists e. split; [exact N|]. now split.
Qed.
Lemma gen_new c shared : gen c shared (l_new c).
Proof. constructor; cbn; try easy. Qed.
Lemma gen_step c shared s l s' : gen c shared s -> lstep c shared s l = Some s' -> gen c shared s'.
Proof.
  intros G H. destruct l as [| | | |x].
  - cbn [lstep] in H. destruct (l_h s) eqn:Eh; try discriminate. destruct (dstep c (l_e s) LRun) as [e|] eqn:E; [|discriminate]. injection H as <-. cbn [dstep] in E. assert (M := g_out _ _ _ G ltac:(rewrite Eh; discriminate)). rewrite M in E. injection E as <-.
    constructor; cbn [l_e l_h l_log d_main d_out d_sh sh_tr].
    + intros e. rewrite n_starts_app, n_ends_app, (g_bodies _ _ _ G e). unfold all_ops. cbn. rewrite M. cbn. lia.
    + intros _. now split.
    + now intros X.
    + discriminate.
    + intros x [].
  - cbn [lstep] in H. destruct (l_h s) eqn:Eh; try discriminate. injection H as <-. destruct G as [G1 G2 G3 G4 G5]. rewrite Eh in *. constructor; cbn [l_e l_h l_log]; try assumption; try discriminate. intros _. apply G3. discriminate.
  - cbn [lstep] in H. assert (H' : s' = mkL (l_e s) (HDel (els (c_g c))) (l_log s) /\ l_h s <> HIn) by (destruct (l_h s); try discriminate; injection H as <-; now split). destruct H' as [-> Eh]. destruct G as [G1 G2 G3 G4 G5]. constructor; cbn [l_e l_h l_log]; try assumption; try discriminate. intros _. now apply G3.
  - cbn [lstep] in H. assert (Add : forall v h, by_owner v -> h <> HIn -> l_h s <> HIn -> (shared = false -> away h = true -> away (l_h s) = true) -> gen c shared (mkL (l_e s) h (l_log s ++ [v]))).
    { intros v h V N1 N2 A. destruct G as [G1 G2 G3 G4 G5]. constructor; cbn [l_e l_h l_log]; [|contradiction|intros _; now apply G3|intros S X; apply G4; auto|intros x X; apply in_or_app; left; now apply G5].
      intros e. rewrite n_starts_app, n_ends_app, G1. destruct v; try contradiction; cbn; lia. }
    assert (Same : forall h, h <> HIn -> l_h s <> HIn -> (shared = false -> away h = true -> away (l_h s) = true) -> gen c shared (mkL (l_e s) h (l_log s))).
    { intros h N1 N2 A. destruct G as [G1 G2 G3 G4 G5]. constructor; cbn [l_e l_h l_log]; [exact G1|contradiction|intros _; now apply G3|intros S X; apply G4; auto|exact G5]. }
    destruct (l_h s) as [| |r|r| |[|y r]| |[|y r]|] eqn:Eh; try discriminate.
    + injection H as <-. apply Add; try easy.
    + injection H as <-. apply Add; try easy.
    + destruct shared.
      * injection H as <-. apply Same; easy.
      * unfold pool_gone in H. destruct (d_act (l_e s)) as [|p a] eqn:A; [|discriminate]. injection H as <-. destruct G as [G1 G2 G3 G4 G5]. assert (M : d_main (l_e s) = MIdle) by (apply G3; rewrite Eh; discriminate).
        constructor; cbn [l_e l_h l_log d_main d_act d_pool d_sh]; try discriminate; try easy. intros e. rewrite G1. unfold all_ops. cbn. rewrite M, A. cbn. assert (Z : forall q, sumf (f_body e) (map OExec q) = 0) by (intros q; induction q; [reflexivity|assumption]). rewrite Z. lia.
    + injection H as <-. apply Same; easy.
    + injection H as <-. apply Add; try easy.
    + injection H as <-. apply Same; easy.
    + injection H as <-. apply Add; try easy.
  - destruct (lstep_eng c shared s x s' H) as (e & N & E & ->). destruct (fresh_is c _ _ _ N E) as (d & T & F & _ & C & _). destruct G as [G1 G2 G3 G4 G5]. rewrite F.
    assert (B : forall y, n_starts y (l_log s ++ map VEv d) = sumf (f_body y) (all_ops e) + n_ends y (l_log s ++ map VEv d)) by (intros y; rewrite n_starts_app, n_ends_app, n_starts_ev, n_ends_ev, G1; specialize (C y); lia).
    assert (Tr : forall y, In y (sh_tr (d_sh e)) -> In (VEv y) (l_log s ++ map VEv d)) by (intros y Hy; rewrite T in Hy; apply in_app_or in Hy as [Hy|Hy]; apply in_or_app; [left; now apply G5|right; now apply in_map]).
    assert (Q : l_h s = HIn \/ l_h s <> HIn) by (destruct (l_h s); try (right; discriminate); now left). destruct Q as [Eh|Nh].
    + destruct (G2 Eh) as [M O]. destruct (in_run c _ _ _ N M O E) as [[M' O']|[M' (r & O')]]; rewrite Eh, O'; constructor; cbn [l_e l_h l_log]; try assumption; try easy.
    + assert (M := G3 Nh). destruct (idle_stays c _ _ _ N M E) as [M' O']. assert (Z : match l_h s, d_out e with HIn, Some r => HBack r | _, _ => l_h s end = l_h s) by (destruct (l_h s); try reflexivity; contradiction). rewrite Z.
      constructor; cbn [l_e l_h l_log]; try assumption; [contradiction|intros _; exact M'|]. intros S A. exfalso. destruct (G4 S A) as [A1 A2]. exact (dead_step c _ _ _ M A1 A2 N E).
Qed.
Lemma gen_run c shared : forall ls s s', gen c shared s -> lrun c shared s ls = Some s' -> gen c shared s'.
Proof. induction ls as [|l ls IH]; intros s s' G H; cbn [lrun] in H; [now injection H as <-|]. destruct (lstep c shared s l) as [s1|] eqn:E; [|discriminate]. apply (IH s1); [now apply (gen_step c shared s l)|exact H]. Qed.
(** * Logs that grow *)
Lemma grow_one {A} (lg : list A) v a x b : lg ++ [v] = a ++ x :: b -> (b = [] /\ lg = a /\ v = x) \/ exists b', b = b' ++ [v] /\ lg = a ++ x :: b'.
Proof.
  destruct b as [|y b] using rev_ind; intros E.
  - apply app_inj_tail in E as [-> ->]. now left.
  - right. clear IHb. rewrite app_comm_cons, app_assoc in E. apply app_inj_tail in E as [-> ->]. now exists b.
Qed.
Lemma grow_ev lg d a x b : lg ++ map VEv d = a ++ x :: b -> by_owner x -> exists b', lg = a ++ x :: b'.
Proof.
  revert b. induction d as [|y d IH] using rev_ind; intros b E V; [rewrite app_nil_r in E; now exists b|]. rewrite map_app, app_assoc in E. apply grow_one in E as [(_ & _ & E)|(b' & _ & E)]; [subst x; contradiction|]. now apply (IH b').
Qed.
Lemma calm_ev lg d : calm lg -> calm (lg ++ map VEv d).
Proof. intros C a x b E V. destruct (grow_ev lg d a x b E V) as (b' & E'). exact (C a x b' E' V). Qed.
Lemma calm_one lg v : calm lg -> at_rest lg -> calm (lg ++ [v]).
Proof. intros C R a x b E V. apply grow_one in E as [(_ & E & _)|(b' & _ & E)]; [now subst a|exact (C a x b' E V)]. Qed.
Definition opened (a : list lev) : Prop := exists a1 a2, a = a1 ++ VSetup :: a2 /\ forall x, In x a2 -> ~ by_owner x.
Lemma opened_ev lg d : opened lg -> opened (lg ++ map VEv d).
Proof. intros (a1 & a2 & -> & H). exists a1, (a2 ++ map VEv d). split; [now rewrite <- app_assoc|]. intros x X. apply in_app_or in X as [X|X]; [now apply H|]. apply in_map_iff in X as (y & <- & _). now intros []. Qed.
Lemma inside_one lg v : inside lg -> by_owner v -> inside (lg ++ [v]).
Proof. intros I V a e b E. apply grow_one in E as [(_ & _ & E)|(b' & _ & E)]; [subst v; contradiction|exact (I a e b' E)]. Qed.
Lemma inside_ev lg d : inside lg -> opened lg -> inside (lg ++ map VEv d).
Proof.
  intros I O. induction d as [|y d IH] using rev_ind; [now rewrite app_nil_r|]. intros a e b E. rewrite map_app, app_assoc in E. apply grow_one in E as [(_ & E & _)|(b' & _ & E)]; [|exact (IH a e b' E)]. subst a. exact (opened_ev lg d O).
Qed.

(** * No error *)
Section Fine.
Variables (c : dcfg) (shared : bool) (Hwf : wf (c_g c)) (Hac : acyclic (c_g c)).
Definition good_out (s : dst) : Prop := forall st, d_out s = Some st -> (0 <= code st)%Z.
Lemma quiet s : Inv c s -> d_main s = MIdle -> good_out s -> harmless c (all_ops s).
Proof.
  intros I M G. pose proof (v_phase c s I) as P. rewrite M in P. destruct (d_out s) as [st|] eqn:O; [|apply P]. destruct P as (R & E & [F|X]); [exact (done_harmless c Hwf Hac _ _ R F)|]. apply isErr_code in X. specialize (G st O). lia.
Qed.
Lemma quiet_bodies s e : harmless c (all_ops s) -> sumf (f_body e) (all_ops s) = 0.
Proof. intros H. apply (harmless_weight c (f_body e) _ H); reflexivity. Qed.
Record fine (s : lst) : Prop := {
  f_inv : Inv c (l_e s);
  f_out : l_h s <> HIn -> good_out (l_e s);
  f_calm : calm (l_log s);
  f_inside : inside (l_log s);
  f_open : l_h s = HIn -> opened (l_log s)
}.
Definition failed (lg : list lev) : Prop := exists e r, In (VEv (GFinish e r)) lg /\ (code r < 0)%Z.
Lemma failed_more lg l : failed lg -> failed (lg ++ l).
Proof. intros (e & r & H & N). exists e, r. split; [apply in_or_app; now left|exact N]. Qed.
Lemma fine_rest s : gen c shared s -> fine s -> l_h s <> HIn -> at_rest (l_log s).
Proof. intros G F N e. rewrite (g_bodies _ _ _ G e), (quiet_bodies (l_e s)); [reflexivity|]. apply quiet; [apply F|now apply (g_out _ _ _ G)|now apply F]. Qed.
Lemma fine_step s l s' : gen c shared s -> failed (l_log s) \/ fine s -> lstep c shared s l = Some s' -> failed (l_log s') \/ fine s'.
Proof.
  intros G K H. assert (Gs := gen_step c shared s l s' G H).
  destruct K as [K|F].
  { left. destruct l as [| | | |x].
    - cbn [lstep] in H. destruct (l_h s); try discriminate. destruct (dstep c (l_e s) LRun); [|discriminate]. injection H as <-. now apply failed_more.
    - cbn [lstep] in H. destruct (l_h s); try discriminate. now injection H as <-.
    - cbn [lstep] in H. destruct (l_h s); try discriminate; now injection H as <-.
    - cbn [lstep] in H. destruct (l_h s) as [| |r|r| |[|y r]| |[|y r]|]; try discriminate; try (injection H as <-; first [exact K|now apply failed_more]). destruct shared; [now injection H as <-|]. destruct (pool_gone (l_e s)); [|discriminate]. now injection H as <-.
    - destruct (lstep_eng c shared s x s' H) as (e & _ & _ & ->). now apply failed_more. }
  destruct l as [| | | |x].
  - right. cbn [lstep] in H. destruct (l_h s) eqn:Eh; try discriminate. destruct (dstep c (l_e s) LRun) as [e|] eqn:E; [|discriminate]. injection H as <-. assert (N : l_h s <> HIn) by (rewrite Eh; discriminate). constructor; cbn [l_e l_h l_log].
    + apply (Inv_step c Hwf Hac (l_e s) LRun e); [apply F| |exact E]. intros _ st O X. pose proof (f_out s F N st O). lia.
    + now intros X.
    + apply calm_one; [apply F|now apply fine_rest].
    + apply inside_one; [apply F|exact I].
    + intros _. exists (l_log s), []. split; [reflexivity|intros x []].
  - right. cbn [lstep] in H. destruct (l_h s) eqn:Eh; try discriminate. injection H as <-. constructor; cbn [l_e l_h l_log]; [apply F|intros _; apply F; rewrite Eh; discriminate|apply F|apply F|discriminate].
  - right. cbn [lstep] in H. assert (H' : s' = mkL (l_e s) (HDel (els (c_g c))) (l_log s) /\ l_h s <> HIn) by (destruct (l_h s); try discriminate; injection H as <-; now split). destruct H' as [-> Eh]. constructor; cbn [l_e l_h l_log]; [apply F|intros _; now apply F|apply F|apply F|discriminate].
  - right. cbn [lstep] in H. assert (N : l_h s <> HIn) by (intros X; rewrite X in H; discriminate H). assert (R := fine_rest s G F N).
    assert (Add : forall v h, by_owner v -> h <> HIn -> fine (mkL (l_e s) h (l_log s ++ [v]))).
    { intros v h V N1. constructor; cbn [l_e l_h l_log]; [apply F|intros _; now apply F|apply calm_one; [apply F|exact R]|apply inside_one; [apply F|exact V]|contradiction]. }
    assert (Same : forall h, h <> HIn -> fine (mkL (l_e s) h (l_log s))).
    { intros h N1. constructor; cbn [l_e l_h l_log]; [apply F|intros _; now apply F|apply F|apply F|contradiction]. }
    destruct (l_h s) as [| |r|r| |[|y r]| |[|y r]|] eqn:Eh; try discriminate; try (injection H as <-; first [apply Add; easy|apply Same; easy]).
    destruct shared; [injection H as <-; apply Same; easy|]. unfold pool_gone in H. destruct (d_act (l_e s)) as [|p a] eqn:A; [|discriminate]. injection H as <-.
    assert (P : d_pool (l_e s) = []). { assert (Q := quiet (l_e s) (f_inv s F) (g_out _ _ _ G ltac:(rewrite Eh; discriminate)) (f_out s F ltac:(rewrite Eh; discriminate))). destruct (d_pool (l_e s)) as [|y q] eqn:P; [reflexivity|]. exfalso. assert (X : In (OExec y) (all_ops (l_e s))) by (unfold all_ops; rewrite P; apply in_or_app; right; apply in_or_app; right; now left). destruct (Q _ X) as [X1|[X1|(z & X1 & _)]]; discriminate X1. }
    assert (E : mkD (d_sh (l_e s)) [] [] (d_main (l_e s)) (d_out (l_e s)) = l_e s) by (destruct (l_e s); cbn in *; now subst). rewrite E. apply Same; easy.
  - destruct (lstep_eng c shared s x s' H) as (e & N & E & ->). destruct (fresh_is c _ _ _ N E) as (d & T & Fr & _ & _ & _ & Hh). rewrite Fr in *. assert (I' : Inv c e) by (apply (Inv_step c Hwf Hac (l_e s) x e); [apply F| |exact E]; intros X; contradiction).
    assert (Q : l_h s = HIn \/ l_h s <> HIn) by (destruct (l_h s); try (right; discriminate); now left). destruct Q as [Eh|Nh].
    + destruct (g_in _ _ _ G Eh) as [M O]. destruct (in_run c _ _ _ N M O E) as [[M' O']|[M' (r & O')]]; rewrite Eh, O' in *.
      * right. constructor; cbn [l_e l_h l_log]; [exact I'|now intros X|apply calm_ev, F|apply inside_ev; [apply F|now apply F]|intros _; apply opened_ev; now apply F].
      * pose proof (v_phase c e I') as P. rewrite M', O' in P. destruct P as (R & Er & _). destruct (r_stat c _ _ R) as [Z|(Z & y & Hy)].
        -- right. constructor; cbn [l_e l_h l_log]; [exact I'| |apply calm_ev, F|apply inside_ev; [apply F|now apply F]|discriminate]. intros _ st X. rewrite O' in X. injection X as <-. rewrite Er, Z. vm_compute. discriminate.
        -- left. exists y, (sh_stat (d_sh e)). split; [|exact Z]. cbn [l_log]. apply (g_tr _ _ _ Gs (GFinish y (sh_stat (d_sh e))) Hy).
    + assert (M := g_out _ _ _ G Nh). destruct (idle_stays c _ _ _ N M E) as [M' O']. assert (Z : match l_h s, d_out e with HIn, Some r => HBack r | _, _ => l_h s end = l_h s) by (destruct (l_h s); try reflexivity; contradiction). rewrite Z.
      assert (D : d = []) by (apply Hh, quiet; [apply F|exact M|now apply F]). subst d. cbn [map]. rewrite app_nil_r. right. constructor; cbn [l_e l_h l_log]; [exact I'| |apply F|apply F|apply F]. intros _ st X. rewrite O' in X. exact (f_out s F Nh st X).
Qed.
Lemma fine_run : forall ls s s', gen c shared s -> failed (l_log s) \/ fine s -> lrun c shared s ls = Some s' -> failed (l_log s') \/ fine s'.
Proof. induction ls as [|l ls IH]; intros s s' G K H; cbn [lrun] in H; [now injection H as <-|]. destruct (lstep c shared s l) as [s1|] eqn:E; [|discriminate]. apply (IH s1); [now apply (gen_step c shared s l)|now apply (fine_step s l)|exact H]. Qed.
Lemma fine_new : fine (l_new c).
Proof. constructor; cbn; [apply Inv_init|intros _ st X; discriminate X|intros a x b E; destruct a; discriminate|intros a x b E; destruct a; discriminate|discriminate]. Qed.
End Fine.

(** * Destroying with a pool of one's own *)
Lemma own_rest c s : gen c false s -> away (l_h s) = true -> at_rest (l_log s).
Proof.
  intros G A e. destruct (g_gone _ _ _ G eq_refl A) as [A1 A2]. rewrite (g_bodies _ _ _ G e). unfold all_ops. rewrite A1, A2, (g_out _ _ _ G); [reflexivity|]. intros X. rewrite X in A. discriminate A.
Qed.
Lemma own_destroy c : forall ls s s', gen c false s -> (forall a e b, l_log s = a ++ VDestroy e :: b -> at_rest a) -> lrun c false s ls = Some s' -> forall a e b, l_log s' = a ++ VDestroy e :: b -> at_rest a.
Proof.
  induction ls as [|l ls IH]; intros s s' G K H; cbn [lrun] in H; [now injection H as <-|]. destruct (lstep c false s l) as [s1|] eqn:E; [|discriminate]. apply (IH s1); [now apply (gen_step c false s l)| |exact H]. clear H IH.
  assert (One : forall v, (forall e, v <> VDestroy e) \/ at_rest (l_log s) -> forall a e b, l_log s ++ [v] = a ++ VDestroy e :: b -> at_rest a).
  { intros v V a e b Q. apply grow_one in Q as [(_ & <- & Q)|(b' & _ & Q)]; [|exact (K a e b' Q)]. destruct V as [V|V]; [now apply V in Q|exact V]. }
  destruct l as [| | | |x].
  - cbn [lstep] in E. destruct (l_h s); try discriminate. destruct (dstep c (l_e s) LRun); [|discriminate]. injection E as <-. apply One. left. discriminate.
  - cbn [lstep] in E. destruct (l_h s); try discriminate. now injection E as <-.
  - cbn [lstep] in E. destruct (l_h s); try discriminate; now injection E as <-.
  - cbn [lstep] in E. destruct (l_h s) as [| |r|r| |[|y r]| |[|y r]|] eqn:Eh; try discriminate; try (injection E as <-; first [exact K|apply One; left; discriminate]).
    + destruct (pool_gone (l_e s)); [|discriminate]. injection E as <-. exact K.
    + injection E as <-. apply One. right. apply (own_rest c s G). now rewrite Eh.
  - destruct (lstep_eng c false s x s1 E) as (e0 & N & E0 & ->). destruct (fresh_is c _ _ _ N E0) as (d & _ & -> & _). cbn [l_log]. intros a e b Q. destruct (grow_ev _ _ _ _ _ Q I) as (b' & Q'). exact (K a e b' Q').
Qed.
(** * After a failed run *)
Definition given_out (s : dst) (e : nat) : Prop := In (OExec e) (all_ops s) \/ In (OEnq e) (all_ops s).
Lemma op_given c sh o r sh' new enq nt : op_sem c sh o r = (sh', new, enq, nt) -> isErr (sh_stat sh) = true -> forall e, In (OExec e) (new ++ map OExec enq) \/ In (OEnq e) (new ++ map OExec enq) -> o = OEnq e.
Proof.
  intros H X. destruct o as [e a|e|e|e|e r0| |e|e l res|e|]; cbn [op_sem] in H; rewrite ?X in H.
  all: repeat match type of H with
       | context [if ?b then _ else _] => destruct b eqn:?
       | context [match ?l with [] => _ | _ :: _ => _ end] => destruct l
       | context [match ?x with Some _ => _ | None => _ end] => destruct x
       end; inversion H; subst; clear H; intros y; cbn; intros [Hy|Hy]; repeat (destruct Hy as [Hy|Hy]; try discriminate Hy); try contradiction; try (injection Hy as ->); try reflexivity.
Qed.
Lemma left_step c s l s' : l <> LRun -> d_main s = MIdle -> isErr (sh_stat (d_sh s)) = true -> dstep c s l = Some s' ->
  sh_stat (d_sh s') = sh_stat (d_sh s) /\ forall e, given_out s' e -> given_out s e.
Proof.
  intros N M X H.
  assert (W : is_work l s s' c -> sh_stat (d_sh s') = sh_stat (d_sh s) /\ forall e, given_out s' e -> given_out s e).
  { intros (o & r & sh' & new & enq & nt & B0 & E & _ & Es & P & P' & _). split; [rewrite Es; now apply (op_facts c _ _ _ _ _ _ _ E)|]. intros e He. assert (Q : In (OExec e) (new ++ map OExec enq) \/ In (OEnq e) (new ++ map OExec enq) \/ In (OExec e) B0 \/ In (OEnq e) B0).
    { destruct He as [He|He]; apply (Permutation_in _ P') in He; rewrite app_assoc in He; apply in_app_or in He as [He|He]; auto. }
    unfold given_out. destruct Q as [Q|[Q|[Q|Q]]].
    - right. apply (Permutation_in _ (Permutation_sym P)). left. apply (op_given c _ _ _ _ _ _ _ E X e). now left.
    - right. apply (Permutation_in _ (Permutation_sym P)). left. apply (op_given c _ _ _ _ _ _ _ E X e). now right.
    - left. apply (Permutation_in _ (Permutation_sym P)). now right.
    - right. apply (Permutation_in _ (Permutation_sym P)). now right. }
  destruct l as [|r|i r|i|]; [contradiction|cbn [dstep] in H; rewrite M in H; discriminate H| | |cbn [dstep] in H; rewrite M in H; discriminate H].
  - apply W. now apply work_step with i r.
  - apply pick_step in H as (H1 & _ & _ & P & _). split; [now rewrite H1|]. intros e [He|He]; [left|right]; now apply (Permutation_in _ P).
Qed.
Lemma left_run c : forall ls s s', ~ In LRun ls -> d_main s = MIdle -> isErr (sh_stat (d_sh s)) = true -> drun c s ls = Some s' ->
  d_main s' = MIdle /\ d_out s' = d_out s /\ exists d, trace s' = trace s ++ d /\ forall e, In (GStart e) d -> given_out s e.
Proof.
  induction ls as [|l ls IH]; intros s s' N M X H; cbn [drun] in H; [injection H as <-; split; [exact M|]; split; [reflexivity|]; exists []; rewrite app_nil_r; split; [reflexivity|intros e []]|].
  destruct (dstep c s l) as [s1|] eqn:E; [|discriminate]. assert (Nl : l <> LRun) by (intros ->; apply N; now left). destruct (left_step c s l s1 Nl M X E) as [S1 G1]. destruct (idle_stays c s l s1 Nl M E) as [M1 O1]. destruct (eng_events c s l s1 Nl E) as (d & T & _ & _ & D & _).
  destruct (IH s1 s' (fun Q => N (or_intror Q)) M1 ltac:(now rewrite S1) H) as (M' & O' & d' & T' & D'). split; [exact M'|]. split; [now rewrite O'|]. exists (d ++ d'). unfold trace in *. split; [rewrite T', T; now rewrite app_assoc|]. intros e He. apply in_app_or in He as [He|He]; [left; now apply D|apply G1; now apply D'].
Qed.
Lemma no_spur c : forall ls s s', ~ In LRun ls -> d_main s = MIdle -> drun c s ls = Some s' -> sumf spur ls = 0 /\ d_main s' = MIdle.
Proof.
  induction ls as [|l ls IH]; intros s s' N M H; cbn [drun] in H; [injection H as <-; now split|]. destruct (dstep c s l) as [s1|] eqn:E; [|discriminate]. assert (Nl : l <> LRun) by (intros ->; apply N; now left). destruct (idle_stays c s l s1 Nl M E) as [M1 _].
  destruct (IH s1 s' (fun Q => N (or_intror Q)) M1 H) as [Z M']. split; [|exact M']. cbn [sumf]. rewrite Z. destruct l; try reflexivity. cbn [dstep] in E. rewrite M in E. discriminate.
Qed.
Lemma settled c s : 0 < c_workers c -> d_main s = MIdle -> (forall p, In p (d_act s) -> p <> []) -> (forall l s', l <> LRun -> dstep c s l <> Some s') -> d_pool s = [] /\ d_act s = [].
Proof.
  intros W M P H. destruct (d_act s) as [|p a] eqn:A.
  - split; [|reflexivity]. destruct (d_pool s) as [|e q] eqn:Q; [reflexivity|]. exfalso. destruct (dstep c s (LPick 0)) as [s1|] eqn:E; [now apply (H (LPick 0) s1)|]. cbn [dstep] in E. rewrite A, Q in E. cbn [length nth_error] in E. destruct (Nat.ltb_spec 0 (c_workers c)); [discriminate|lia].
  - exfalso. destruct p as [|o rest]; [now apply (P []); [left|]|]. destruct (dstep c s (LWork 0 st_default)) as [s1|] eqn:E; [now apply (H (LWork 0 st_default) s1)|]. cbn [dstep] in E. rewrite A, M in E. cbn [nth_error] in E. assert (X : op_enabled MIdle o = true) by (destruct o; reflexivity). rewrite X in E. destruct (op_sem c (d_sh s) o st_default) as [[[sh' new] enq] nt]. discriminate.
Qed.

(** * The static engine *)
From Verif Require Import StaticModel.
Lemma at_check inl : forall mat con m, static_prog inl mat = con ++ ACheck :: m -> exists m1 m2, mat = m1 ++ m2 /\ con ++ [ACheck] = static_prog inl m1.
Proof.
  induction mat as [|arr mat IH]; intros con m E; [destruct con; discriminate|]. unfold static_prog in *. cbn [flat_map] in E.
  assert (L : exists c0, layer_prog inl arr = c0 ++ [ACheck] /\ ~ In ACheck c0).
  { unfold layer_prog. eexists. split; [rewrite !app_assoc; reflexivity|]. rewrite !in_app_iff. intros [[H|H]|H].
    - apply in_map_iff in H as (x & H & _). discriminate.
    - apply in_flat_map in H as (x & _ & [H|[H|[]]]); discriminate.
    - apply in_map_iff in H as (x & H & _). discriminate. }
  destruct L as (c0 & L & N). rewrite L, <- app_assoc in E. cbn [app] in E.
  assert (Q : c0 = con \/ exists con', con = (c0 ++ [ACheck]) ++ con' /\ flat_map (layer_prog inl) mat = con' ++ ACheck :: m).
  { clear L IH. revert con E. induction c0 as [|a c0 IH]; intros [|b con] E; cbn in E.
    - now left.
    - injection E as <- E. right. exists con. now split.
    - injection E as -> _. exfalso. apply N. now left.
    - injection E as <- E. destruct (IH (fun X => N (or_intror X)) con E) as [->|(con' & -> & E')]; [now left|right]. exists con'. now split. }
  destruct Q as [->|(con' & -> & E')].
  - exists [arr], mat. split; [reflexivity|]. cbn. now rewrite L, app_nil_r.
  - destruct (IH con' m E') as (m1 & m2 & -> & E2). exists (arr :: m1), m2. split; [reflexivity|]. cbn [flat_map]. now rewrite <- E2, L, <- !app_assoc.
Qed.
Lemma static_quiet inl g mat : wf g -> layering g mat -> forall s con, sinv inl g mat s con -> s_out s <> None -> s_queue s = [] /\ s_running s = [] /\ forall e, In (GStart e) (s_tr s) -> exists v, In (GFinish e v) (s_tr s).
Proof.
  intros Wf Ly s con I O. pose proof (si_prog _ _ _ _ _ I) as Hp. unfold prog in Hp.
  assert (K : exists m1 z, con ++ z = static_prog inl m1 /\ (forall x, In x z -> x = ACheck)).
  { pose proof (si_out _ _ _ _ _ I) as Ho. destruct (s_out s) as [[v|v]|]; [| |contradiction].
    - destruct Ho as (_ & [(Em & _)|(_ & m & Em)]); rewrite Em in Hp.
      + exists mat, []. split; [symmetry; rewrite Hp; now rewrite !app_nil_r|intros x []].
      + destruct (at_check inl mat con m Hp) as (m1 & m2 & _ & E). exists m1, [ACheck]. split; [exact E|intros x [<-|[]]; reflexivity].
    - destruct Ho as (_ & _ & m & Em). rewrite Em in Hp. destruct (at_check inl mat con m Hp) as (m1 & m2 & _ & E). exists m1, [ACheck]. split; [exact E|intros x [<-|[]]; reflexivity]. }
  destruct K as (m1 & z & E & Z).
  assert (Wz : forall f : sact -> nat, f ACheck = 0 -> sumf f con = sumf f (static_prog inl m1)).
  { intros f Hf. rewrite <- E, sumf_app. enough (sumf f z = 0) by lia. clear - Z Hf. induction z as [|a z IH]; [reflexivity|]. cbn [sumf]. rewrite (Z a (or_introl eq_refl)), Hf, IH; [reflexivity|]. intros x Hx. apply Z. now right. }
  assert (Q : forall e, cnt e (s_queue s) = 0 /\ cnt e (s_running s) = 0 /\ (0 < cnt e (starts (s_tr s)) -> 0 < cnt e (map fst (finishes (s_tr s))))).
  { intros e. destruct (prog_w inl e m1) as (A1 & A2 & A3 & _). destruct (prog_w inl e mat) as (B1 & B2 & B3 & _). pose proof (si_cons _ _ _ _ _ I e) as Hc. pose proof (si_fin _ _ _ _ _ I e) as Hf.
    pose proof (Wz (w_start e) eq_refl) as W1. pose proof (Wz (w_ms e) eq_refl) as W2. pose proof (Wz (w_mf e) eq_refl) as W3. rewrite Hp, sumf_app in B1, B2, B3.
    assert (N1 : cnt e (concat mat) <= 1) by (apply cnt_nodup; now apply (mat_nodup g)).
    destruct (Nat.eq_dec (sumf (w_start e) con) 0) as [C|C].
    - assert (cnt e (concat m1) = 0) by lia. destruct (inl e); lia.
    - assert (Hin : In e (concat m1)) by (apply cnt_in; lia). apply in_concat in Hin as (arr & Harr & Ie). destruct (layer_joined inl arr e Ie) as (c1 & Ec & Jc).
      assert (Jz : joined e con).
      { unfold joined in *. assert (G : forall a, In a c1 -> a <> ACheck -> In a con). { intros a Ha Na. assert (X : In a (con ++ z)) by (rewrite E; unfold static_prog; apply in_flat_map; exists arr; split; [exact Harr|rewrite Ec; apply in_or_app; now left]). apply in_app_or in X as [X|X]; [exact X|]. now apply Z in X. }
        destruct Jc as [Jc|Jc]; [left|right]; apply G; try exact Jc; discriminate. }
      destruct (si_join _ _ _ _ _ I e Jz) as (w & Hw & _). apply in_finishes in Hw. apply (in_map fst), cnt_in in Hw. cbn [fst] in Hw. destruct (inl e); lia. }
  split; [|split].
  - destruct (s_queue s) as [|e q] eqn:X; [reflexivity|]. destruct (Q e) as [Y _]. unfold cnt in Y. rewrite count_occ_cons_eq in Y by reflexivity. discriminate.
  - destruct (s_running s) as [|e q] eqn:X; [reflexivity|]. destruct (Q e) as [_ [Y _]]. unfold cnt in Y. rewrite count_occ_cons_eq in Y by reflexivity. discriminate.
  - intros e He. apply in_starts, cnt_in, Q, cnt_in, in_map_iff in He as ([y v] & Ey & Hy). cbn [fst] in Ey. subst y. exists v. now apply in_finishes.
Qed.
