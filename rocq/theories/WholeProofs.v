From Verif Require Import WholeModel GraphSpec WholeSpec TopoProofs EngineSeqProofs StaticProofs GraphProps DynProps FastProofs FastProps StatusProofs ElemProofs PipeProofs PipeLife PipeProps.
From Coq Require Import ZArith Lia Permutation.
Local Open Scope nat_scope.
Local Open Scope list_scope.

(** * Every engine *)
Lemma seq_proper g res l p q : wf g -> Permutation l (els g) -> (forall d e, edge g d e -> before l d e) -> l = p ++ q ->
  (forall x y, before p x y -> (0 <= code (res x))%Z) -> proper_round g (seq_trace res p).
Proof.
  intros W P O E H. assert (N : NoDup l) by (eapply Permutation_NoDup; [symmetry; exact P|apply W]). split; [|split].
  - unfold starts_once. rewrite seq_trace_starts. rewrite E in N. clear - N. induction p as [|x p IH]; [constructor|]. cbn in N. inversion N; subst.
    constructor; [intro X; apply H1, in_or_app; now left|now apply IH].
  - rewrite seq_trace_starts. intros x X. eapply Permutation_in; [exact P|]. rewrite E. apply in_or_app. now left.
  - eapply seq_trace_deps; [exact N|exact O| |exact E|exact H]. intros x X. now apply (Permutation_in _ P).
Qed.
Lemma before_in_l {A} (l : list A) x y : before l x y -> In x l.
Proof. intro H. now apply before_in in H. Qed.
Lemma seq_no_error res p : (forall e, In e p -> (0 <= code (res e))%Z) -> forall e r, In (GFinish e r) (seq_trace res p) -> (0 <= code r)%Z.
Proof. intros H e r I. apply in_flat_map in I. destruct I as (x & X & [I|[I|[]]]); [discriminate|]. injection I as -> <-. now apply H. Qed.

Lemma static_incl g inl mat ls s : wf g -> layering g mat -> srun (s_init inl mat) ls = Some s -> incl (starts (s_tr s)) (els g).
Proof.
  intros W L R. destruct (srun_inv inl g mat W L ls _ [] s (sinv_init inl g mat) R) as [con I]. intros e E.
  pose proof (si_cons _ _ _ _ _ I e) as C. assert (0 < cnt e (starts (s_tr s))) by now apply cnt_in.
  assert (X : In e (concat mat)) by (apply cnt_in; lia). destruct L as [L _]. now apply (Permutation_in _ L).
Qed.
Lemma setup_acyclic k g : wf g -> setup_ok k g = true <-> acyclic g.
Proof.
  intro W. destruct (C03_init_iff_acyclic g W) as [A NA]. split.
  - intro S. destruct (acyclic_dec g W) as [H|H]; [exact H|]. exfalso. destruct (NA H) as (T & ST & D). destruct k; cbn in S; [rewrite T in S|rewrite ST in S|rewrite D in S]; discriminate.
  - intro H. destruct (A H) as ((l & T & _) & (m & ST & _) & D). destruct k; cbn; [now rewrite T|now rewrite ST|now rewrite D].
Qed.
Lemma engine_proper g k tr r : wf g -> acyclic g -> engine_run g k tr r -> proper_round g tr /\
  (forall v, r = EReturn v -> (0 <= code v)%Z -> complete_round g tr) /\
  (forall v, r = EReturn v -> (code v < 0)%Z -> exists e, In (GFinish e v) tr).
Proof.
  intros W A H. destruct H as [res order tr r T R|inl mat ls s r T R O|bind res prev tr st D P R|bind c ls s st D E1 E2 R O|c ls s st D E R O].
  - destruct (C03_init_iff_acyclic g W) as [AA _]. destruct (AA A) as ((l & TL & PM & OR) & _). rewrite T in TL. injection TL as <-.
    destruct (topo_run_shape _ _ _ _ R) as [(F & -> & ->)|(p & f & q & -> & F & N & -> & ->)].
    + rewrite Forall_forall in F. assert (PR : proper_round g (seq_trace res order)).
      { eapply (seq_proper g res order order []); [exact W|exact PM|exact OR|now rewrite app_nil_r|]. intros x y B. now apply F, before_in_l with y. }
      split; [exact PR|]. split.
      * intros v _ _. split; [exact PR|]. split; [split; [rewrite seq_trace_starts|rewrite seq_trace_finishes]; exact PM|]. now apply seq_no_error.
      * intros v V N. injection V as <-. now vm_compute in N.
    + split.
      * eapply (seq_proper g res (p ++ f :: q) (p ++ [f]) q); [exact W|exact PM|exact OR|now rewrite <- app_assoc|]. intros x y B. eapply before_first_error; eassumption.
      * unfold check_result. split; intros v V H; destruct (code (res f) =? STATUS_CRASH)%Z; try discriminate; injection V as <-; [lia|].
        exists f. unfold seq_trace. rewrite flat_map_app. apply in_or_app. right. cbn. auto.
  - destruct (C05_static_engine g inl W A) as (m & M & LY & H). rewrite T in M. injection M as <-. destruct (H ls s R) as (H1 & H2 & H3 & _ & H5 & _).
    assert (PR : proper_round g (s_tr s)).
    { split; [exact H2|]. split; [|exact H1]. exact (static_incl g inl mat ls s W LY R). }
    split; [exact PR|]. split.
    + intros v -> V. destruct (H3 v O V) as (-> & B & C). split; [exact PR|]. split; [exact B|exact C].
    + intros v -> V. exact (H5 v O V).
  - destruct (C10_serial_run g bind res prev W A D P) as (l & tr' & out & [PM CH] & E & H). rewrite R in E. injection E as <- <-.
    assert (OR : forall d e, edge g d e -> before l d e).
    { intros d e X. apply CH in X. destruct X as (a & b & ->). exists a, [], b. reflexivity. }
    destruct H as [(F & -> & AR & ->)|(p & f & q & -> & F & N & -> & ->)].
    + assert (PR : proper_round g (seq_trace res l)).
      { eapply (seq_proper g res l l []); [exact W|exact PM|exact OR|now rewrite app_nil_r|]. intros x y B. now apply F, before_in_l with y. }
      split; [exact PR|]. split.
      * intros v _ _. split; [exact PR|]. split; [exact AR|now apply seq_no_error].
      * intros v V N. injection V as <-. now vm_compute in N.
    + split.
      * eapply (seq_proper g res (p ++ f :: q) (p ++ [f]) q); [exact W|exact PM|exact OR|now rewrite <- app_assoc|]. intros x y B. eapply before_first_error; [|exact B]. now apply Forall_forall.
      * split; intros v V H; injection V as <-; [lia|]. exists f. unfold seq_trace. rewrite flat_map_app. apply in_or_app. right. cbn. auto.
  - destruct (C10_parallel_run g c ls s (conj W (conj E1 E2)) R) as (H1 & H2 & H3 & H4). destruct (C10_parallel_only_independent g bind W D) as [_ ND].
    assert (PR : proper_round g (p_tr s)).
    { split; [exact H1|]. split; [exact H2|]. intros t1 e t2 T d X. destruct (ND d e). split; [|exact X].
      apply H2. rewrite T. unfold starts. rewrite flat_map_app. apply in_or_app. right. now left. }
    split; [exact PR|]. split.
    + intros v V N. injection V as <-. destruct (H3 st O N) as (_ & AR & NE & _). split; [exact PR|]. split; [exact AR|exact NE].
    + intros v V N. injection V as <-. exact (H4 st O N).
  - subst g. destruct (C06_starts_after_deps c ls s W A R) as (H1 & H2 & H3). assert (PR : proper_round (c_g c) (trace s)) by (split; [exact H2|split; assumption]).
    split; [exact PR|]. split.
    + intros v V N. injection V as <-. destruct (C07_ok_means_all_ran_once c ls s st W A R O N) as (_ & AR & NE & _). split; [exact PR|]. split; [exact AR|exact NE].
    + intros v V N. injection V as <-. destruct (C09_error_reported c ls s W A R) as (H & _). exact (H st O N).
Qed.

(** * The log *)
Section H.
Variable tr : plog -> list gevent.
Lemma history_app pre d1 d2 : history tr pre (d1 ++ d2) = history tr pre d1 ++ history tr (pre ++ d1) d2.
Proof.
  revert pre. induction d1 as [|x d1 IH]; intro pre; cbn [app history]; [now rewrite app_nil_r|]. rewrite IH, <- app_assoc. now rewrite <- app_assoc.
Qed.
(** Away from the engine the history is read off the calls. *)
Definition vis0 (c : pcall) : list vis := match c with KInit e => [VInit e] | KDestroy e => [VDestroy e] | _ => [] end.
Lemma history_calls d : forall pre, ~ In KEngine (map fst d) -> history tr pre d = flat_map vis0 (map fst d).
Proof.
  induction d as [|[c r] d IH]; intros pre N; [reflexivity|]. cbn [map fst flat_map history]. rewrite IH by (intro X; apply N; now right). f_equal.
  destruct c; try reflexivity. destruct N. now left.
Qed.
End H.

Section Kinds.
Variable ask : pask.
Variable P : pcall -> Prop.
(** The log grows by calls that satisfy [P]. *)
Definition grows (l l' : plog) : Prop := exists d, l' = l ++ d /\ Forall P (map fst d).
Lemma grows_refl l : grows l l.
Proof. exists []. rewrite app_nil_r. split; [reflexivity|constructor]. Qed.
Lemma grows_trans a b c : grows a b -> grows b c -> grows a c.
Proof. intros (d & -> & F) (e & -> & G). exists (d ++ e). rewrite app_assoc, map_app. split; [reflexivity|now apply Forall_app]. Qed.
Lemma grows_one l c r : P c -> grows l (l ++ [(c, r)]).
Proof. intro H. exists [(c, r)]. split; [reflexivity|]. cbn. now constructor. Qed.
Lemma add_grows f ks st l l' st' : (forall k, P (f k)) -> add_loop ask f ks st l = (l', st') -> grows l l'.
Proof.
  intros H E. destruct (add_loop_spec ask _ _ _ _ _ _ E) as (d & -> & M & _). exists d. split; [reflexivity|]. rewrite M.
  apply Forall_forall. intros c C. apply in_map_iff in C. destruct C as (k & <- & _). apply H.
Qed.
Lemma suit_grows es : (forall e, P (KSuit e)) -> forall st l l' o, suit_loop ask es st l = (l', o) -> grows l l'.
Proof.
  intro H. induction es as [|e es IH]; intros st l l' o E; cbn in E; [injection E as <- _; apply grows_refl|].
  destruct (check_status _).
  - eapply grows_trans; [apply grows_one, (H e)|eapply IH; exact E].
  - injection E as <- _. apply grows_one, H.
  - injection E as <- _. apply grows_one, H.
Qed.
Variable b : bool.
Hypothesis HN : forall e, P (if b then KInit e else KDestroy e).
Hypothesis HD : b = true -> forall w, P (KDag w).
Definition fgrows (f : elt -> EL -> EL * status) (t : elt) : Prop := forall s s' v, f t s = (s', v) -> grows (snd s) (snd s').
Lemma plain_grows f cs : Forall (fgrows f) cs -> forall st s s' v, plain_loop f cs st s = (s', v) -> grows (snd s) (snd s').
Proof.
  induction 1 as [|c cs F _ IH]; intros st s s' v E; cbn in E; [injection E as <- _; apply grows_refl|].
  destruct (f c s) as [s1 v1] eqn:E1. eapply grows_trans; [eapply F; exact E1|eapply IH; exact E].
Qed.
Lemma mgr_loop_grows f cs : Forall (fgrows f) cs -> forall st s s' o, mgr_loop f b cs st s = (s', o) -> grows (snd s) (snd s').
Proof.
  induction 1 as [|c cs F _ IH]; intros st s s' o E; cbn in E; [injection E as <- _; apply grows_refl|].
  destruct (f c s) as [[fl l] v1] eqn:E1. pose proof (F _ _ _ E1) as G. cbn [snd] in G. destruct (check_status _).
  - eapply grows_trans; [exact G|]. apply (IH _ _ _ _ E).
  - injection E as <- _. exact G.
  - injection E as <- _. exact G.
Qed.
Lemma mgr_life_grows f cs w : Forall (fgrows f) cs -> forall s s' o, mgr_life ask f b w cs s = (s', o) -> grows (snd s) (snd s').
Proof.
  intros F s s' o E. unfold mgr_life in E. destruct b eqn:B.
  - destruct (pr_flag _).
    + rewrite <- B in E. eapply grows_trans; [apply grows_one, (HD eq_refl w)|]. eapply mgr_loop_grows in E; [|exact F]. exact E.
    + injection E as <- _. apply grows_one, (HD eq_refl).
  - rewrite <- B in E. now apply (mgr_loop_grows _ _ F) in E.
Qed.
Lemma fat_grows t : fgrows (fat_life ask b) t.
Proof.
  induction t as [e|e cs IH|e cs IH] using elt_rect'; intros s s' v E; cbn [fat_life] in E.
  - injection E as <- _. cbn [snd]. apply grows_one, HN.
  - destruct (plain_loop (fat_life ask b) cs st_default s) as [[fl l] st] eqn:E1. pose proof (plain_grows _ _ IH _ _ _ _ E1) as G. cbn [snd] in G.
    destruct (check_status st); injection E as <- _; exact G.
  - destruct (mgr_life ask (fat_life ask b) b (Some e) cs s) as [[fl l] o] eqn:E1. pose proof (mgr_life_grows _ _ _ IH _ _ _ E1) as G. cbn [snd] in G.
    destruct o; [destruct (check_status _)| | |]; injection E as <- _; exact G.
Qed.
Lemma top_grows cs w s s' o : mgr_life ask (fat_life ask b) b w cs s = (s', o) -> grows (snd s) (snd s').
Proof. apply mgr_life_grows. apply Forall_forall. intros t _. apply fat_grows. Qed.
End Kinds.
Definition of_init (c : pcall) : Prop := match c with KSuit _ | KPInit _ | KEvInit _ | KDag _ | KInit _ | KDmInit _ => True | _ => False end.
Definition of_destroy (c : pcall) : Prop := match c with KEvDestroy _ | KDmDestroy _ | KDestroy _ | KPDestroy _ => True | _ => False end.
Lemma init_grows ask p p' o : pipe_init ask p = (p', o) -> grows of_init (pp_log p) (pp_log p').
Proof.
  unfold pipe_init. destruct (pp_init p); [intro E; injection E as <- _; apply grows_refl|].
  destruct (init_env ask p) as [p1 o1] eqn:E0. destruct (init_env_spec _ _ _ _ E0) as (_ & _ & _ & (d & L & _ & KS & _) & _).
  assert (G : grows of_init (pp_log p) (pp_log p1)).
  { exists d. split; [exact L|]. apply Forall_forall. intros c C. apply in_map_iff in C. destruct C as ([c' r] & <- & C). destruct (KS _ _ C) as (e & ->). exact I. }
  intro E. destruct o1 as [v|m| |]; try (injection E as <- _; exact G).
  destruct (check_status _); [|injection E as <- _; exact G|injection E as <- _; exact G].
  destruct (add_loop ask KPInit _ _ _) as [l1 s1] eqn:E1. destruct (add_loop ask KEvInit _ _ _) as [l2 s2] eqn:E2.
  destruct (mgr_life ask _ true None _ _) as [[fl l3] o3] eqn:E3.
  assert (G3 : grows of_init (pp_log p) l3).
  { eapply grows_trans; [exact G|]. eapply grows_trans; [eapply (add_grows ask); [|exact E1]; easy|]. eapply grows_trans; [eapply (add_grows ask); [|exact E2]; easy|].
    apply (top_grows ask of_init true) in E3; [exact E3|easy|easy]. }
  destruct o3 as [s3|m| |]; try (injection E as <- _; exact G3).
  destruct (add_loop ask KDmInit _ _ _) as [l4 s4] eqn:E4.
  assert (G4 : grows of_init (pp_log p) l4) by (eapply grows_trans; [exact G3|]; eapply (add_grows ask); [|exact E4]; easy).
  cbv zeta in E. destruct (check_status _); injection E as <- _; exact G4.
Qed.
Lemma destroy_grows ask p p' o : pipe_destroy ask p = (p', o) -> grows of_destroy (pp_log p) (pp_log p').
Proof.
  unfold pipe_destroy. destruct (negb (pp_init p)); [intro E; injection E as <- _; apply grows_refl|].
  destruct (add_loop ask KEvDestroy _ _ _) as [l1 s1] eqn:E1. destruct (add_loop ask KDmDestroy _ _ _) as [l2 s2] eqn:E2.
  destruct (mgr_life ask _ false None _ _) as [[fl l3] o3] eqn:E3. intro E.
  assert (G3 : grows of_destroy (pp_log p) l3).
  { eapply grows_trans; [eapply (add_grows ask); [|exact E1]; easy|]. eapply grows_trans; [eapply (add_grows ask); [|exact E2]; easy|].
    apply (top_grows ask of_destroy false) in E3; [exact E3|easy|easy]. }
  destruct o3 as [s3|m| |]; try (injection E as <- _; exact G3).
  destruct (add_loop ask KPDestroy _ _ _) as [l4 s4] eqn:E4.
  assert (G4 : grows of_destroy (pp_log p) l4) by (eapply grows_trans; [exact G3|]; eapply (add_grows ask); [|exact E4]; easy).
  cbv zeta in E. destruct (check_status _); injection E as <- _; exact G4.
Qed.

(** A cyclic graph: the init of the pipeline fails, and no element is initialised. *)
Definition early (c : pcall) : Prop := match c with KSuit _ | KPInit _ | KEvInit _ | KDag _ | KDmInit _ => True | _ => False end.
Lemma init_cyclic ask p p' o : (forall lg, pr_flag (ask lg (KDag None)) = false) -> pipe_init ask p = (p', o) ->
  ok_out o = false /\ grows early (pp_log p) (pp_log p').
Proof.
  intros HF. unfold pipe_init.
  destruct (pp_init p) eqn:PI; [intro E; injection E as <- <-; split; [reflexivity|]; apply grows_refl|].
  destruct (init_env ask p) as [p1 o1] eqn:E0. destruct (init_env_spec _ _ _ _ E0) as (I1 & _ & _ & (d & L & _ & KS & _) & _).
  assert (G : grows early (pp_log p) (pp_log p1)).
  { exists d. split; [exact L|]. apply Forall_forall. intros c C. apply in_map_iff in C. destruct C as ([c' r] & <- & C). destruct (KS _ _ C) as (e & ->). exact I. }
  intro E. destruct o1 as [v|m| |]; try (injection E as <- <-; split; [reflexivity|exact G]).
  destruct (Z_lt_ge_dec (code (st_plus st_default v)) 0) as [X|X].
  { rewrite check_status_err in E by exact X. destruct (_ =? _)%Z; injection E as <- <-; (split; [|exact G]); [reflexivity|now apply bad_val]. }
  rewrite check_status_ok in E by lia.
  destruct (add_loop ask KPInit _ _ _) as [l1 s1] eqn:E1. destruct (add_loop ask KEvInit _ _ _) as [l2 s2] eqn:E2.
  assert (G2 : grows early (pp_log p) l2).
  { eapply grows_trans; [exact G|]. eapply grows_trans; [eapply (add_grows ask); [|exact E1]; easy|]. eapply (add_grows ask); [|exact E2]; easy. }
  unfold mgr_life in E. cbn [snd fst] in E. rewrite HF in E.
  destruct (add_loop ask KDmInit _ _ _) as [l4 s4] eqn:E4. cbv zeta in E.
  assert (G4 : grows early (pp_log p) l4).
  { eapply grows_trans; [exact G2|]. eapply grows_trans; [|eapply (add_grows ask); [|exact E4]; easy]. apply grows_one. exact I. }
  match type of E with context [check_status ?s] => set (st := s) in * end.
  assert (Hst : (code st < 0)%Z).
  { destruct (Z_lt_ge_dec (code st) 0) as [H|H]; [exact H|]. assert (Y : (0 <= code st)%Z) by lia. unfold st in Y. rewrite !plus_nonneg in Y.
    destruct Y as ((_ & Y) & _). cbn in Y. unfold STATUS_ERR in Y. lia. }
  rewrite check_status_err in E by exact Hst. destruct (_ =? _)%Z; injection E as <- <-; (split; [|exact G4]); [reflexivity|now apply bad_val].
Qed.

(** * Runs *)
Lemma not_engine P l l' : grows P l l' -> ~ P KEngine -> exists d, l' = l ++ d /\ Forall P (map fst d) /\ forall tr pre, history tr pre d = flat_map vis0 (map fst d).
Proof.
  intros (d & -> & F) N. exists d. split; [reflexivity|]. split; [exact F|]. intros tr pre. apply history_calls. rewrite Forall_forall in F. intro X. apply N, F, X.
Qed.
Lemma vis0_nil (cs : list pcall) : (forall c, In c cs -> is_life_call c = false) -> flat_map vis0 cs = [].
Proof. induction cs as [|c cs IH]; intro H; [reflexivity|]. cbn. rewrite IH by (intros; apply H; now right). specialize (H c (or_introl eq_refl)). destruct c; cbn in *; easy. Qed.
Lemma vis0_life cs : flat_map vis0 cs = flat_map vis0 (filter is_life_call cs).
Proof. induction cs as [|c cs IH]; [reflexivity|]. cbn. destruct c; cbn; now rewrite IH. Qed.
Lemma vis0_init l : flat_map vis0 (map KInit l) = map VInit l.
Proof. induction l as [|x l IH]; [reflexivity|]. cbn. now rewrite IH. Qed.
Lemma vis0_destroy l : flat_map vis0 (map KDestroy l) = map VDestroy l.
Proof. induction l as [|x l IH]; [reflexivity|]. cbn. now rewrite IH. Qed.
Definition only_init (v : vis) : Prop := exists e, v = VInit e.
Definition only_destroy (v : vis) : Prop := exists e, v = VDestroy e.
Lemma init_only cs : Forall of_init cs -> Forall only_init (flat_map vis0 cs).
Proof. induction 1 as [|c cs H _ IH]; [constructor|]. cbn. apply Forall_app. split; [|exact IH]. destruct c; try easy; repeat constructor. now exists e. Qed.
Lemma destroy_only cs : Forall of_destroy cs -> Forall only_destroy (flat_map vis0 cs).
Proof. induction 1 as [|c cs H _ IH]; [constructor|]. cbn. apply Forall_app. split; [|exact IH]. destruct c; try easy; repeat constructor. now exists e. Qed.
Definition nodes (c : cfg) : list nat := flat_map tree_nodes (c_elems c).
Lemma init_visible ask tr p p' : pipe_init ask p = (p', Val st_default) ->
  exists d, pp_log p' = pp_log p ++ d /\ history tr (pp_log p) d = map VInit (nodes (pp_cfg p)).
Proof.
  intro E. destruct (proj1 (C56_order ask p p') E) as (d & mid & L & M & F & K). exists d. split; [exact L|].
  rewrite history_calls; rewrite M.
  - rewrite !flat_map_app. rewrite (vis0_life mid), F, vis0_init.
    rewrite !(vis0_nil (map _ _)) by (intros c C; apply in_map_iff in C; destruct C as (x & <- & _); reflexivity). now rewrite app_nil_r.
  - rewrite !in_app_iff. intros [C|[C|[C|[C|C]]]]; try (apply in_map_iff in C; destruct C as (x & C & _); discriminate).
    destruct (K _ C) as [X|(w & X)]; discriminate.
Qed.
Lemma destroy_visible ask tr p p' : pipe_destroy ask p = (p', Val st_default) ->
  exists d, pp_log p' = pp_log p ++ d /\ history tr (pp_log p) d = map VDestroy (nodes (pp_cfg p)).
Proof.
  intro E. destruct (proj2 (C56_order ask p p') E) as (d & L & M). exists d. split; [exact L|]. rewrite history_calls; rewrite M.
  - rewrite !flat_map_app. rewrite vis0_destroy.
    rewrite (vis0_nil (map KEvDestroy _)), (vis0_nil (map KDmDestroy _)), (vis0_nil (map KPDestroy _)) by (intros c C; apply in_map_iff in C; destruct C as (x & <- & _); reflexivity).
    now rewrite app_nil_r.
  - rewrite !in_app_iff. intros [C|[C|[C|C]]]; apply in_map_iff in C; destruct C as (x & C & _); discriminate.
Qed.

Section Rounds.
Variables (ask : pask) (tr : plog -> list gevent) (g : graph) (eng : engine).
Hypothesis W : wf g.
Hypothesis A : acyclic g.
Hypothesis HE : forall lg, exists r, engine_run g eng (tr lg) r /\ answers r (ask lg KEngine).
Hypothesis HC : forall lg, pr_flag (ask lg KEngine) = false.
Lemma run_round p p' o : pp_init p = true -> pipe_run ask p = (p', o) ->
  pp_init p' = true /\ c_elems (pp_cfg p') = c_elems (pp_cfg p) /\ pp_cancel p' = false /\
  exists d last, pp_log p' = pp_log p ++ d /\ history tr (pp_log p) d = concat (map (map VRun) last) /\ length last <= 1 /\
    Forall (proper_round g) last /\ (ok_out o = true -> length last = 1 /\ Forall (complete_round g) last).
Proof.
  intros Hi E. destruct (pipe_run_spec ask _ _ _ E Hi) as (I' & _ & _ & CE & _ & ds & [M _] & H). split; [exact I'|]. split; [exact CE|].
  assert (NS : history tr (pp_log p) ds = []).
  { rewrite history_calls; rewrite M; [apply vis0_nil|]; [intros c C|intro C]; apply in_map_iff in C; destruct C as (x & C & _); [now subst|discriminate]. }
  destruct H as [(s & F & L & _ & CF & ->)|(F & _ & CF & H)].
  - split; [exact CF|]. exists ds, []. split; [exact L|]. split; [exact NS|]. split; [apply Nat.le_0_l|]. split; [constructor|].
    intro X. exfalso. apply find_some in F. destruct F as [_ F]. apply isErr_lt in F. destruct (_ =? _)%Z; [discriminate|]. apply ok_val in X. lia.
  - rewrite HC in CF. split; [exact CF|]. destruct (HE (pp_log p ++ ds)) as (r & ER & AN).
    destruct (engine_proper g eng _ r W A ER) as (PR & CO & _).
    destruct H as [(m & T & -> & L)|(T & dh & dw & dr & st & -> & ST & [SM _] & _ & L)].
    + exists (ds ++ [(KEngine, ask (pp_log p ++ ds) KEngine)]), [tr (pp_log p ++ ds)]. split; [exact L|]. split.
      { rewrite history_app, NS. cbn. now rewrite !app_nil_r. }
      split; [apply le_n|]. split; [constructor; [exact PR|constructor]|discriminate].
    + exists (ds ++ [(KEngine, ask (pp_log p ++ ds) KEngine)] ++ dh ++ dw ++ dr), [tr (pp_log p ++ ds)]. split; [exact L|]. split.
      { rewrite history_app, NS. cbn [app history vis_of fst]. rewrite history_calls.
        - rewrite SM, vis0_nil; [cbn; now rewrite !app_nil_r|]. intros c C. rewrite !in_app_iff in C.
          destruct C as [C|[C|C]]; apply in_map_iff in C; destruct C as (x & <- & _); reflexivity.
        - rewrite SM. intro C. rewrite !in_app_iff in C. destruct C as [C|[C|C]]; apply in_map_iff in C; destruct C as (x & C & _); discriminate. }
      split; [apply le_n|]. split; [constructor; [exact PR|constructor]|]. intro X. apply ok_val in X. split; [reflexivity|]. constructor; [|constructor].
      destruct r as [v|m]; cbn in AN; [|congruence]. destruct AN as [_ AN]. apply (CO v eq_refl). rewrite AN in ST.
      destruct (Z_lt_ge_dec (code v) 0) as [N|N]; [exfalso|lia]. rewrite assign_err in ST by (first [exact N|apply code_default]).
      assert (Y : (code st < 0)%Z); [|lia]. rewrite ST. clear - N. induction (map (fun e : pcall * presp => pr_st (snd e)) dh) as [|x l IH]; [exact N|].
      cbn [st_sum fold_left]. unfold st_sum in *. cbn. replace (st_plus v x) with v; [exact IH|]. unfold st_plus. apply isErr_lt in N. now rewrite N.
Qed.
Lemma hist_app h1 : forall h2 p, pipe_history ask (h1 ++ h2) p =
  let '(p1, r1) := pipe_history ask h1 p in let '(p2, r2) := pipe_history ask h2 p1 in (p2, r1 ++ r2).
Proof.
  induction h1 as [|x h1 IH]; intros h2 p; cbn [app pipe_history]; [now destruct (pipe_history ask h2 p)|].
  destruct (pipe_step ask p x) as [p0 v]. rewrite IH. destruct (pipe_history ask h1 p0) as [p1 r1]. now destruct (pipe_history ask h2 p1).
Qed.
Lemma full_rounds k : forall p p' rs, pp_init p = true -> pipe_history ask (repeat ORun k) p = (p', rs) -> Forall (fun r => ok_out r = true) rs ->
  pp_init p' = true /\ c_elems (pp_cfg p') = c_elems (pp_cfg p) /\
  exists d rounds, pp_log p' = pp_log p ++ d /\ history tr (pp_log p) d = concat (map (map VRun) rounds) /\ length rounds = k /\ Forall (complete_round g) rounds.
Proof.
  induction k as [|k IH]; intros p p' rs Hi E F; cbn [repeat pipe_history] in E.
  - injection E as <- <-. split; [exact Hi|]. split; [reflexivity|]. exists [], []. rewrite app_nil_r. do 3 (split; [reflexivity|]). constructor.
  - cbn [pipe_step] in E. destruct (pipe_run ask p) as [p1 o] eqn:E1. destruct (pipe_history ask (repeat ORun k) p1) as [p2 r2] eqn:E2.
    injection E as <- <-. inversion F; subst. destruct (run_round _ _ _ Hi E1) as (I1 & C1 & _ & d1 & l1 & L1 & H1' & _ & _ & K1). destruct (K1 H1) as [N1 F1].
    destruct (IH _ _ _ I1 E2 H2) as (I2 & C2 & d2 & l2 & L2 & HH2 & N2 & F2).
    split; [exact I2|]. split; [congruence|]. exists (d1 ++ d2), (l1 ++ l2). rewrite app_assoc, <- L1. split; [exact L2|].
    split; [rewrite history_app, <- L1, H1', HH2, map_app, concat_app; reflexivity|]. split; [rewrite app_length; lia|now apply Forall_app].
Qed.
End Rounds.
Lemma engine_throw g k tr r m : wf g -> acyclic g -> engine_run g k tr r -> r = EThrow m -> exists e v, In (GFinish e v) tr /\ (code v < 0)%Z.
Proof.
  intros W A H. destruct H as [res order tr r T R|inl mat ls s r T R O|bind res prev tr st D P R|bind c ls s st D E1 E2 R O|c ls s st D E R O]; intro X; try discriminate.
  - destruct (topo_run_shape _ _ _ _ R) as [(F & -> & ->)|(p & f & q & -> & F & N & -> & ->)]; [discriminate|]. exists f, (res f). split; [|exact N].
    unfold seq_trace. rewrite flat_map_app. apply in_or_app. right. cbn. auto.
  - subst r. destruct (C05_static_engine g inl W A) as (mm & M & _ & H). rewrite T in M. injection M as <-. pose proof (H ls s R) as H7.
    do 5 (apply proj2 in H7).
    destruct (H7 m O) as (e & v & I & C & _). exists e, v. split; [exact I|]. rewrite C. reflexivity.
Qed.

(** * Nothing fails *)
Section Fine.
Variable ask : pask.
Hypothesis F : all_fine ask.
Hypothesis T : forall lg, pr_thr (ask lg KEngine) = None.
Lemma seg_fine l d cs : segment ask l d cs -> forall e, In e d -> isErr (pr_st (snd e)) = false.
Proof.
  intros [_ FF] [c r] I. apply in_split in I. destruct I as (a & b & I). rewrite (FF a c r b I). apply isErr_ge. apply F.
Qed.
Lemma find_fine {A} (f : A -> bool) l : (forall x, In x l -> f x = false) -> find f l = None.
Proof. induction l as [|x l IH]; intro H; [reflexivity|]. cbn. rewrite (H x) by now left. apply IH. intros y Y. apply H. now right. Qed.
Lemma run_fine p p' o : pp_init p = true -> pipe_run ask p = (p', o) -> ok_out o = true /\ pp_init p' = true.
Proof.
  intros Hi E. destruct (pipe_run_spec ask _ _ _ E Hi) as (I' & _ & _ & _ & _ & ds & SG & H). split; [|exact I'].
  destruct H as [(s & X & _)|(_ & _ & _ & [(m & X & _)|(_ & dh & dw & dr & st & -> & -> & SG2 & _)])].
  - rewrite (find_fine _ _ (seg_fine _ _ _ SG)) in X. discriminate.
  - rewrite T in X. discriminate.
  - apply ok_val. assert (Y : (0 <= code (st_assign st_default (pr_st (ask (pp_log p ++ ds) KEngine))))%Z) by (rewrite assign_code; apply F).
    rewrite st_sum_spec by now apply isErr_ge. rewrite find_fine; [exact Y|]. intros x X. apply in_map_iff in X. destruct X as (e & <- & X).
    apply (seg_fine _ _ _ SG2). apply in_or_app. now left.
Qed.
Lemma runs_fine k : forall p p' rs, pp_init p = true -> pipe_history ask (repeat ORun k) p = (p', rs) -> Forall (fun r => ok_out r = true) rs /\ pp_init p' = true.
Proof.
  induction k as [|k IH]; intros p p' rs Hi E; cbn [repeat pipe_history] in E; [injection E as <- <-; now split|].
  cbn [pipe_step] in E. destruct (pipe_run ask p) as [p1 o] eqn:E1. destruct (pipe_history ask (repeat ORun k) p1) as [p2 r2] eqn:E2. injection E as <- <-.
  destruct (run_fine _ _ _ Hi E1) as [O1 I1]. destruct (IH _ _ _ I1 E2) as [F2 I2]. split; [now constructor|exact I2].
Qed.
Lemma destroy_fine p p' o : pp_init p = true -> pipe_destroy ask p = (p', o) -> ok_out o = true.
Proof.
  intros Hi E. unfold pipe_destroy in E. rewrite Hi in E. cbn [negb] in E.
  pose proof (fine_loop ask KEvDestroy (c_events (pp_cfg p)) F st_default (pp_log p) code_default) as X1. destruct (add_loop ask KEvDestroy _ _ _) as [l1 s1].
  pose proof (fine_loop ask KDmDestroy (c_daemons (pp_cfg p)) F st_default l1 code_default) as X2. destruct (add_loop ask KDmDestroy _ _ _) as [l2 s2].
  destruct (fine_mgr ask false None (c_elems (pp_cfg p)) (pp_flag p, l2) F) as ([fl l3] & v & EM & X3). rewrite EM in E.
  pose proof (fine_loop ask KPDestroy (c_params (pp_cfg p)) F st_default l3 code_default) as X4. destruct (add_loop ask KPDestroy _ _ _) as [l4 s4]. cbn [snd] in *.
  match type of E with context [check_status ?s] => set (st := s) in * end.
  assert (Hst : (0 <= code st)%Z) by (unfold st; rewrite !plus_nonneg; repeat split; first [exact code_default|assumption]).
  rewrite check_status_ok in E by exact Hst. injection E as <- <-. now apply ok_val.
Qed.
Lemma process_fine n p p' o : pp_init p = false -> existsb (pp_flag p) (all_ids (pp_cfg p)) = false -> c_shared (pp_cfg p) <> Some false ->
  pipe_process ask n p = (p', o) -> ok_out o = true.
Proof.
  intros Hi HF HS E. destruct (fine_init ask p F Hi HF HS) as (p1 & E1). destruct (C24_process _ _ _ _ _ E) as [(oi & X & Y & _)|(q & k & p2 & rs & X & _ & HH & _ & H)].
  - rewrite E1 in X. injection X as _ <-. discriminate.
  - rewrite E1 in X. injection X as <-. destruct (pipe_init_spec _ _ _ _ E1) as (_ & _ & _ & IS & _). cbn in IS. destruct IS as (_ & _ & I1 & _).
    destruct (runs_fine _ _ _ _ I1 HH) as [FR I2]. destruct H as [(rs0 & x & -> & NV & _)|(ss & d & -> & _ & ED & H)].
    + exfalso. apply Forall_app in FR. destruct FR as [_ FR]. inversion FR; subst. destruct (ok_out_val _ H1) as (s & -> & _). now apply (NV s).
    + pose proof (destroy_fine _ _ _ I2 ED) as OD. destruct (ok_out_val _ OD) as (w & -> & W). destruct H as [(w' & X & ->)|(X & _)]; [|now destruct (X w)].
      injection X as <-. apply ok_val. rewrite st_sum_spec by reflexivity. rewrite find_fine; [apply code_default|]. intros x X. apply isErr_ge.
      apply in_app_or in X. destruct X as [X|[<-|[]]]; [|exact W]. rewrite Forall_forall in FR. apply ok_val. apply FR. now apply in_map.
Qed.
End Fine.
