(** C114: a run leaves the same data and reports the same statuses with every engine and every schedule, if elements that touch the same data depend on each other. *)
From Verif Require Import WholeModel WholeSpec WholeProofs GraphProps DataProofs.
From Verif Require Import WholeProps OptModel TrimProofs OptProps.
From Verif Require Export DataSpec.
From Coq Require Import ZArith Lia Permutation.
Local Open Scope nat_scope.
Local Open Scope list_scope.

(** * The trace of the engine and the events *)
Lemma xall_trace body t : forall s s', xall body s t = Some s' -> exists d, x_tr s' = x_tr s ++ d /\ starts d = begins t /\ (forall e, In (End e) t <-> exists r, In (GFinish e r) d).
Proof.
  induction t as [|v t IH]; intros s s' E; cbn [xall] in E; [injection E as <-; exists []; rewrite app_nil_r; repeat split; [intros []|intros (r & [])]|]. destruct (xone body s v) as [s1|] eqn:E1; [|discriminate E]. destruct (IH s1 s' E) as (d & T & S & F).
  destruct v as [e|e|e]; cbn [xone] in E1.
  - injection E1 as <-. exists (GStart e :: d). split; [cbn in T; rewrite T, <- app_assoc; reflexivity|]. split; [cbn; fold (starts d); fold (begins t); now rewrite S|]. intros f. split; [intros [X|X]; [discriminate X|]; apply F in X as (r & X); exists r; now right|intros (r & [X|X]); [discriminate X|]; right; apply F; now exists r].
  - assert (Q : x_tr s1 = x_tr s) by (destruct (x_cur s e) as [[r|x k|x v k]|]; try discriminate E1; injection E1 as <-; reflexivity). exists d. split; [now rewrite T, Q|]. split; [exact S|]. intros f. rewrite <- F. split; [intros [X|X]; [discriminate X|exact X]|now right].
  - destruct (x_cur s e) as [[r|x k|x v k]|]; try discriminate E1; injection E1 as <-. exists (GFinish e r :: d). split; [cbn in T; rewrite T, <- app_assoc; reflexivity|]. split; [exact S|]. intros f. split.
    + intros [X|X]; [injection X as ->; exists r; now left|]. apply F in X as (r' & X). exists r'. now right.
    + intros (r' & [X|X]); [injection X as -> ->; now left|]. right. apply F. now exists r'.
Qed.
Lemma after_path g body m t s : starts_after_deps g (x_tr s) -> xall body (x_new m) t = Some s -> forall f e, path g f e -> forall t1 t2, t = t1 ++ Begin e :: t2 -> In (End f) t1.
Proof.
  intros D E f e P. induction P as [f e [He Hd]|f x e P1 IH1 P2 IH2]; intros t1 t2 Et.
  - subst t. rewrite xall_app in E. destruct (xall body (x_new m) t1) as [s1|] eqn:E1; [|discriminate E]. destruct (xall_trace body t1 _ _ E1) as (d & T & _ & F). cbn in T. cbn [xall xone] in E. destruct (xall_trace body t2 _ _ E) as (d2 & T2 & _). cbn in T2. rewrite T, <- app_assoc in T2. cbn [app] in T2.
    destruct (D _ _ _ T2 f Hd) as (r & H & _). apply F. now exists r.
  - assert (Ex := IH2 t1 t2 Et). assert (Bx : In (Begin x) t1). { subst t. rewrite xall_app in E. destruct (xall body (x_new m) t1) as [s1|] eqn:E1; [|discriminate E]. destruct (in_dec Nat.eq_dec x (begins t1)) as [I|I]; [now apply begins_in|]. exfalso. rewrite begins_in in I. now apply (needs_begin body x t1 _ _ E1 eq_refl I). }
    apply in_split in Bx as (a & b & ->). apply in_or_app. left. apply (IH1 a (b ++ Begin e :: t2)). rewrite Et, <- app_assoc. reflexivity.
Qed.
Lemma topo_path g o : NoDup o -> (forall d e, edge g d e -> before o d e) -> forall f e, path g f e -> before o f e.
Proof. intros ND H f e P. induction P as [f e X|f x e _ I1 _ I2]; [now apply H|now apply before_trans with x]. Qed.
(** Places of elements that are not in the graph do not matter. *)
Lemma full (R W : nat -> Prop) p : within (fun x => True) (fun x => True) p -> (forall x, R x) -> (forall x, W x) -> within R W p.
Proof. induction p as [r|x k IH|x v k IH]; cbn; intros H A B; auto; (split; [auto|]). - intros v. apply IH; auto. apply H. - apply IH; auto. apply H. Qed.
Lemma always p : within (fun x => True) (fun x => True) p.
Proof. induction p as [r|x k IH|x v k IH]; cbn; auto. Qed.
Lemma within_mono (R W R' W' : nat -> Prop) p : (forall x, R x -> R' x) -> (forall x, W x -> W' x) -> within R W p -> within R' W' p.
Proof. intros A B. induction p as [r|x k IH|x v k IH]; cbn; auto; intros [H K]; (split; [auto|]); auto. Qed.
Lemma run_decided g body o m t s : wf g -> acyclic g -> race_free g body -> topo_order g o -> xall body (x_new m) t = Some s -> proper_round g (x_tr s) ->
  (forall e r, In (GFinish e r) (x_tr s) -> In (e, r) (results body o m)) /\ ((forall e, In e (els g) -> In (End e) t) -> forall x, x_mem s x = after body o m x).
Proof.
  intros Wf A (R & W & HB & HC) [Po Oo] E (On & Inc & De). assert (NDo : NoDup o) by (apply Permutation_NoDup with (els g); [now apply Permutation_sym|apply Wf]).
  destruct (xall_trace body t _ _ E) as (d & T & S & _). cbn in T. subst d.
  set (R' := fun e x => In e (els g) -> R e x). set (W' := fun e x => In e (els g) -> W e x).
  assert (HB' : forall e, within (R' e) (W' e) (body e)). { intros e. destruct (in_dec Nat.eq_dec e (els g)) as [I|I]; [apply within_mono with (R e) (W e); [intros x H _; exact H|intros x H _; exact H|now apply HB]|]. apply full; [apply always|intros x Q; contradiction|intros x Q; contradiction]. }
  destruct (decided body R' W' HB' m o t s NDo E) as [D1 D2].
  - rewrite <- S. exact On.
  - rewrite <- S. intros e He. apply Permutation_in with (els g); [now apply Permutation_sym|]. now apply Inc.
  - intros f e B C. destruct (before_in _ _ _ B) as [If Ie]. apply (Permutation_in _ Po) in If, Ie. assert (Ne : f <> e) by (intros ->; now apply (before_asym o e e NDo)). assert (P : path g f e).
    { destruct (HC f e If Ie Ne) as [P|P]; [|exact P|]. - destruct C as (x & [[C1 C2]|[C1 C2]]); exists x; [left|right]; (split; [now apply C1|]); destruct C2 as [C2|C2]; [left|right|left|right]; now apply C2. - exfalso. apply (before_asym o f e NDo B). now apply (topo_path g o). }
    intros t1 t2 Et. exact (after_path g body m t s De E f e P t1 t2 Et).
  - split; [exact D1|]. intros H x. apply D2. intros e He _. apply H. now apply (Permutation_in _ Po).
Qed.

(** C114: with every engine, in every schedule of the reads and writes of the elements, a run that succeeds leaves in memory what the elements leave there one after another, in any order that respects the dependencies; and each
    element reports the status it reports there. *)
Theorem C114_same : forall g body eng o m t s v, wf g -> acyclic g -> race_free g body -> topo_order g o ->
  xall body (x_new m) t = Some s -> engine_run g eng (x_tr s) (EReturn v) -> (0 <= code v)%Z ->
  (forall x, x_mem s x = after body o m x) /\ Permutation (finishes (x_tr s)) (results body o m).
Proof.
  intros g body eng o m t s v Wf A Rf To E Er V. destruct (engine_proper _ _ _ _ Wf A Er) as (Pr & Co & _). destruct (Co v eq_refl V) as (_ & (_ & Fi) & _). destruct (run_decided g body o m t s Wf A Rf To E Pr) as [D1 D2].
  destruct (xall_trace body t _ _ E) as (d & T & _ & F). cbn in T. subst d. assert (Fin : forall e r, In (e, r) (finishes (x_tr s)) <-> In (GFinish e r) (x_tr s)).
  { intros e r. unfold finishes. rewrite in_flat_map. split; [intros ([f|f q] & H & X); cbn in X; try contradiction; destruct X as [X|[]]; injection X as -> ->; exact H|intros H; exists (GFinish e r); split; [exact H|now left]]. }
  split.
  - apply D2. intros e He. apply F. apply (Permutation_in _ (Permutation_sym Fi)) in He. apply in_map_iff in He as ((f & r) & X & H). cbn in X. subst f. exists r. now apply Fin.
  - assert (Rs : map fst (results body o m) = o) by (clear; revert m; induction o as [|e o IH]; intros m; cbn; [reflexivity|now rewrite IH]).
    apply NoDup_Permutation_bis.
    + apply (NoDup_map_inv fst). apply Permutation_NoDup with (els g); [now apply Permutation_sym|apply Wf].
    + apply Permutation_length in Fi. destruct To as [Po _]. apply Permutation_length in Po. rewrite map_length in Fi. assert (Le : length (results body o m) = length o) by (rewrite <- (map_length fst); now rewrite Rs). lia.
    + intros (e & r) H. apply D1. now apply Fin.
Qed.
(** C114: it succeeds exactly if the elements succeed one after another. *)
Theorem C114_succeeds : forall g body eng o m t s r, wf g -> acyclic g -> race_free g body -> topo_order g o ->
  xall body (x_new m) t = Some s -> engine_run g eng (x_tr s) r ->
  ((exists v, r = EReturn v /\ (0 <= code v)%Z) <-> forall e v, In (e, v) (results body o m) -> (0 <= code v)%Z).
Proof.
  intros g body eng o m t s r Wf A Rf To E Er. destruct (engine_proper _ _ _ _ Wf A Er) as (Pr & Co & Bad). split.
  - intros (v & -> & V) e q H. destruct (C114_same g body eng o m t s v Wf A Rf To E Er V) as [_ P]. apply (Permutation_in _ (Permutation_sym P)) in H. destruct (Co v eq_refl V) as (_ & _ & K). apply (K e). unfold finishes in H. apply in_flat_map in H as ([f|f q'] & H & X); cbn in X; try contradiction. destruct X as [X|[]]. injection X as -> ->. exact H.
  - intros H. destruct (run_decided g body o m t s Wf A Rf To E Pr) as [D1 _]. destruct r as [v|w].
    + exists v. split; [reflexivity|]. destruct (Z_lt_ge_dec (code v) 0) as [L|L]; [|lia]. destruct (Bad v eq_refl L) as (e & F). apply D1, H in F. exact F.
    + exfalso. destruct (engine_throw _ _ _ _ w Wf A Er eq_refl) as (e & v & F & L). apply D1, H in F. lia.
Qed.
(** C114: also in a run that fails, an element that ends reports what it reports when the elements are executed one after another. *)
Theorem C114_reported : forall g body eng o m t s r, wf g -> acyclic g -> race_free g body -> topo_order g o ->
  xall body (x_new m) t = Some s -> engine_run g eng (x_tr s) r -> forall e v, In (GFinish e v) (x_tr s) -> In (e, v) (results body o m).
Proof. intros g body eng o m t s r Wf A Rf To E Er. destruct (engine_proper _ _ _ _ Wf A Er) as (Pr & _). now apply (run_decided g body o m t s). Qed.
(** C114: two runs, with any engines and schedules, on graphs whose elements are ordered in the same way (the same graph; the graph that trim leaves, C11): both succeed or none does, and they leave the same data. *)
Theorem C114_deterministic : forall g g' body eng eng' m t t' s s' r r', wf g -> wf g' -> acyclic g -> Permutation (els g') (els g) -> (forall x y, path g' x y <-> path g x y) -> race_free g body ->
  xall body (x_new m) t = Some s -> engine_run g eng (x_tr s) r -> xall body (x_new m) t' = Some s' -> engine_run g' eng' (x_tr s') r' ->
  ((exists v, r = EReturn v /\ (0 <= code v)%Z) <-> (exists v, r' = EReturn v /\ (0 <= code v)%Z)) /\
  ((exists v, r = EReturn v /\ (0 <= code v)%Z) -> (forall x, x_mem s x = x_mem s' x) /\ Permutation (finishes (x_tr s)) (finishes (x_tr s'))).
Proof.
  intros g g' body eng eng' m t t' s s' r r' Wf Wf' A Pe Pa Rf E Er E' Er'. destruct (C03_init_iff_acyclic g Wf) as [AA _]. destruct (AA A) as ((o & _ & To) & _).
  assert (A' : acyclic g') by (intros e P; apply (A e); now apply Pa). assert (Rf' : race_free g' body).
  { destruct Rf as (R & W & H1 & H2). exists R, W. split; [intros e He; apply H1; now apply (Permutation_in _ Pe)|]. intros e f He Hf N C. destruct (H2 e f (Permutation_in _ Pe He) (Permutation_in _ Pe Hf) N C); [left|right]; now apply Pa. }
  assert (NDo : NoDup o) by (apply Permutation_NoDup with (els g); [apply Permutation_sym, To|apply Wf]).
  assert (To' : topo_order g' o). { destruct To as [P O]. split; [now apply Permutation_trans with (els g); [|apply Permutation_sym]|]. intros d e X. apply (topo_path g o NDo O). apply Pa. now apply t_step. }
  assert (S1 := C114_succeeds g body eng o m t s r Wf A Rf To E Er). assert (S2 := C114_succeeds g' body eng' o m t' s' r' Wf' A' Rf' To' E' Er'). split; [now rewrite S1, S2|].
  intros H. assert (H' : exists v, r' = EReturn v /\ (0 <= code v)%Z) by now apply S2, S1. destruct H as (v & -> & V), H' as (v' & -> & V').
  destruct (C114_same g body eng o m t s v Wf A Rf To E Er V) as [M P]. destruct (C114_same g' body eng' o m t' s' v' Wf' A' Rf' To' E' Er' V') as [M' P']. split; [intros x; now rewrite M, M'|]. apply Permutation_trans with (1 := P). now apply Permutation_sym.
Qed.

(** C114: trim changes neither. *)
Theorem C114_trim : forall st l st' num lv body eng eng' m t t' s s' r r', trimmable st l -> trim st l = Some (st', num) -> In lv (all_levels l) ->
  let g := graph_of st (map root lv) in let g' := graph_of st' (map root lv) in race_free g body ->
  xall body (x_new m) t = Some s -> engine_run g eng (x_tr s) r -> xall body (x_new m) t' = Some s' -> engine_run g' eng' (x_tr s') r' ->
  ((exists v, r = EReturn v /\ (0 <= code v)%Z) <-> (exists v, r' = EReturn v /\ (0 <= code v)%Z)) /\
  ((exists v, r = EReturn v /\ (0 <= code v)%Z) -> (forall x, x_mem s x = x_mem s' x) /\ Permutation (finishes (x_tr s)) (finishes (x_tr s'))).
Proof.
  intros st l st' num lv body eng eng' m t t' s s' r r' T E Lv g g' Rf. destruct (C11_trim st l T) as (st2 & num2 & E2 & H & _). rewrite E in E2. injection E2 as <- <-. destruct (H lv Lv) as (P & _ & _ & _ & Wf' & _). destruct T as (_ & _ & _ & T). destruct (T lv Lv) as [Wf A].
  apply (C114_deterministic g g' body eng eng' m t t' s s' r r' Wf Wf' A (Permutation_refl _) P Rf).
Qed.
(** C114: run after run. *)
Inductive runs (g : graph) (body : nat -> prog) : mem -> nat -> mem -> Prop :=
| runs_0 m : runs g body m 0 m
| runs_S m eng t s v n m' : xall body (x_new m) t = Some s -> engine_run g eng (x_tr s) (EReturn v) -> (0 <= code v)%Z -> runs g body (x_mem s) n m' -> runs g body m (S n) m'.
Fixpoint times (n : nat) (f : mem -> mem) (m : mem) : mem := match n with 0 => m | S k => times k f (f m) end.
Lemma after_ext body o : forall m m', (forall x, m x = m' x) -> forall x, after body o m x = after body o m' x.
Proof. induction o as [|e o IH]; intros m m' H x; cbn [after]; [apply H|]. apply IH. intros y. destruct (whole_frame _ _ _ (always (body e)) m m') as [_ B]; [intros z _; apply H|]. apply B, H. Qed.
Theorem C114_rounds : forall g body o m n m', wf g -> acyclic g -> race_free g body -> topo_order g o -> runs g body m n m' -> forall x, m' x = times n (after body o) m x.
Proof.
  intros g body o m n m' Wf A Rf To H. induction H as [m|m eng t s v n m' E Er V H IH]; intros x; [reflexivity|]. destruct (C114_same g body eng o m t s v Wf A Rf To E Er V) as [M _]. rewrite IH. cbn [times]. clear -M. revert M. generalize (x_mem s) (after body o m). induction n as [|n IH]; intros a b M; cbn [times]; [apply M|]. apply IH. now apply after_ext.
Qed.

(** C114: not so if elements that do not depend on each other touch the same data: two executions of one run of the engine leave different data. *)
Definition pair : graph := graph_of blank [0; 1].
Definition pair_body (e : nat) : prog := Write 0 (Z.of_nat e) (Ret st_default).
Lemma pair_wf : wf pair.
Proof. split; cbn; try (intros e _; split; [constructor|intros x []]); try (intros; tauto). repeat constructor; cbn; intuition discriminate. Qed.
Definition pair_ls : list slabel := [SMain st_default; SMain st_default; SStart 0; SStart 1; SFinish 0 st_default; SFinish 1 st_default; SMain st_default; SMain st_default; SMain st_default; SMain st_default].
Lemma pair_run : engine_run pair EStatic [GStart 0; GStart 1; GFinish 0 st_default; GFinish 1 st_default] (EReturn st_default).
Proof.
  assert (X : exists s, srun (s_init (fun _ => false) [[0; 1]]) pair_ls = Some s /\ s_out s = Some (EReturn st_default) /\ s_tr s = [GStart 0; GStart 1; GFinish 0 st_default; GFinish 1 st_default]) by (eexists; split; [vm_compute; reflexivity|split; reflexivity]).
  destruct X as (s & R & O & <-). eapply er_static; [vm_compute; reflexivity|exact R|exact O].
Qed.
Theorem C114_race_refuted : exists g body eng m t t' s s' v, wf g /\ acyclic g /\ xall body (x_new m) t = Some s /\ xall body (x_new m) t' = Some s' /\
  engine_run g eng (x_tr s) (EReturn v) /\ (0 <= code v)%Z /\ x_tr s' = x_tr s /\ x_mem s 0 <> x_mem s' 0.
Proof.
  exists pair, pair_body, EStatic, (fun _ => 7%Z), [Begin 0; Begin 1; Act 0; Act 1; End 0; End 1], [Begin 0; Begin 1; Act 1; Act 0; End 0; End 1]. eexists. eexists. exists st_default.
  split; [exact pair_wf|]. split; [|split; [reflexivity|split; [reflexivity|split; [exact pair_run|split; [discriminate|split; [reflexivity|discriminate]]]]]].
  assert (N : forall a b, ~ path pair a b) by (intros a b P; induction P as [a b [_ []]|a x b _ I _ _]; exact I). intros e P. now apply N in P.
Qed.

(** * The hypotheses are met *)
(** The diamond of GraphProps: 0 writes place 0; 1 and 2 read it and write places 1 and 2; 3 adds them up in place 3; 4 doubles it. *)
Definition c114_body (e : nat) : prog :=
  match e with
  | 0 => Write 0 5 (Ret st_default)
  | 1 => Read 0 (fun a => Write 1 (a + 1)%Z (Ret st_default))
  | 2 => Read 0 (fun a => Write 2 (a * 3)%Z (Ret st_default))
  | 3 => Read 1 (fun a => Read 2 (fun b => Write 3 (a + b)%Z (Ret st_default)))
  | 4 => Read 3 (fun a => Write 3 (2 * a)%Z (Ret st_default))
  | _ => Ret st_default
  end.
Definition c114_R (e x : nat) : Prop := match e with 1 | 2 => x = 0 | 3 => x = 1 \/ x = 2 | 4 => x = 3 | _ => False end.
Definition c114_W (e x : nat) : Prop := match e with 0 => x = 0 | 1 => x = 1 | 2 => x = 2 | 3 | 4 => x = 3 | _ => False end.
Lemma c114_free : race_free diamond c114_body.
Proof.
  exists c114_R, c114_W. split.
  - intros e He. cbn in He. repeat destruct He as [<-|He]; try contradiction; cbn; repeat (split; auto).
  - assert (E : forall d e, In e (els diamond) -> In d (dep diamond e) -> path diamond d e) by (intros d e H1 H2; apply t_step; now split).
    intros e f He Hf N C. cbn in He, Hf. repeat destruct He as [<-|He]; try contradiction; repeat destruct Hf as [<-|Hf]; try contradiction; try congruence;
      first [left; apply E; cbn; tauto|right; apply E; cbn; tauto|left; apply t_trans with 1; apply E; cbn; tauto|exfalso; destruct C as (x & C); cbn in C; lia].
Qed.
(** Every element does its reads and writes at its end; 1 and 2 are executed at the same time. *)
Definition c114_acts (e : nat) : nat := match e with 0 => 1 | 3 => 3 | _ => 2 end.
Definition c114_t : list dev := flat_map (fun v => match v with GStart e => [Begin e] | GFinish e _ => repeat (Act e) (c114_acts e) ++ [End e] end) dyn_tr.
Example C114_case : exists s, wf diamond /\ acyclic diamond /\ race_free diamond c114_body /\ topo_order diamond [0; 2; 1; 3; 4] /\
  xall c114_body (x_new (fun _ => 0%Z)) c114_t = Some s /\ engine_run diamond (EDynamic (fun _ => (-1)%Z)) (x_tr s) (EReturn st_default) /\ x_mem s 3 = 42%Z /\ runs diamond c114_body (fun _ => 0%Z) 1 (x_mem s).
Proof.
  assert (X : exists s, xall c114_body (x_new (fun _ => 0%Z)) c114_t = Some s /\ x_tr s = dyn_tr /\ x_mem s 3 = 42%Z) by (eexists; split; [vm_compute; reflexivity|split; vm_compute; reflexivity]).
  destruct X as (s & E & T & M). assert (Er : engine_run diamond (EDynamic (fun _ => (-1)%Z)) (x_tr s) (EReturn st_default)) by (rewrite T; exact dyn_run).
  exists s. split; [exact diamond_wf|]. split; [exact diamond_acyclic|]. split; [exact c114_free|]. split; [|split; [exact E|split; [exact Er|split; [exact M|]]]].
  - split.
    + change (els diamond) with [0; 1; 2; 3; 4]. apply perm_skip, perm_swap.
    + intros d e [He Hd]. cbn in He. repeat destruct He as [<-|He]; try contradiction; cbn in Hd; repeat destruct Hd as [<-|Hd]; try contradiction.
      * exists [], [2], [3; 4]. reflexivity.
      * exists [], [], [1; 3; 4]. reflexivity.
      * exists [0; 2], [], [4]. reflexivity.
      * exists [0], [1], [4]. reflexivity.
      * exists [0; 2; 1], [], []. reflexivity.
  - eapply runs_S; [exact E|exact Er|discriminate|apply runs_0].
Qed.
Print Assumptions C114_same.
Print Assumptions C114_succeeds.
Print Assumptions C114_reported.
Print Assumptions C114_deterministic.
Print Assumptions C114_trim.
Print Assumptions C114_rounds.
Print Assumptions C114_race_refuted.
