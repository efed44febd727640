(** C37, C82: what perf reports, and what it leaves behind. *)
From Verif Require Import GraphModel GraphSpec OptModel OptProofs PerfModel PerfSpec PerfProofs.
From Coq Require Import Lia.
Local Open Scope nat_scope.
Local Open Scope list_scope.

(** The setting of C37: a pipeline whose own elements [g] are among the elements of the repository [repo] (which also holds those inside groups), with aspects of the user only;
    the run that perf makes succeeds, no body adds an aspect meanwhile, and every element's events are iterations under a clock that does not run backwards. *)
Record perf_setting (repo : list nat) (g : graph) (t0 : Z) (evs : list (nat * pev)) (s : pst) : Prop := {
  ps_repo : NoDup repo;
  ps_els : incl (els g) repo;
  ps_wf : wf g;
  ps_acyclic : acyclic g;
  ps_user : only_user s;
  ps_noadd : no_add evs;
  ps_its : forall e, In e repo -> exists its, iterations (of_el e evs) its /\ clock_ok t0 its }.

(** The total cost that the report gives for a list of elements. *)
Definition report_cost (rep : nat -> option pinfo) (q : list nat) : Z := total (fun e => match rep e with Some i => i_accu i | None => 0%Z end) q.

Lemma added_nil e evs : no_add evs -> added (of_el e evs) = [].
Proof.
  intros H. unfold of_el. induction evs as [|[k v] evs IH]; [reflexivity|]. cbn [filter fst].
  assert (H' : no_add evs) by (intros a n Hn; apply (H a n); right; exact Hn). specialize (IH H').
  destruct (Nat.eqb k e); [|exact IH]. cbn [map snd]. destruct v; try exact IH. exfalso. apply (H k n). left; reflexivity.
Qed.

(** What a successful run leads to; the theorems below are read off from it. *)
Lemma perf_ok repo g t0 evs s : NoDup repo -> incl (els g) repo -> wf g -> acyclic g -> only_user s ->
  (forall e, In e repo -> exists its, iterations (of_el e (filter (fun x => match snd x with PAdd _ => false | _ => true end) evs)) its /\ clock_ok t0 its) ->
  let w := fun e => snd (replay t0 (of_el e evs)) in
  exists ref p rep s', perf repo g t0 evs true s = Some (true, rep, s') /\
  (forall e, In e repo -> rep e = Some (mkInfo (i_loop (w e)) (i_first (w e)) (i_last (w e)) (i_accu (w e)) (memb e p))) /\
  chain (edge g) p /\ incl p (els g) /\ (els g <> [] -> p <> []) /\ (p <> [] -> dep g (hd 0 p) = [] /\ succ g (last p 0) = []) /\
  (forall q, incl q (els g) -> chain (edge g) q -> (cost w q <= cost w p)%Z) /\
  (forall e, In e repo -> p_asp s' e = removelast (p_asp s e ++ APerf t0 (fst (replay t0 (of_el e evs))) (ref e) :: added (of_el e evs)) /\ p_info s' e = None /\ p_heap s' (ref e) = None) /\
  (forall e, ~ In e repo -> p_asp s' e = p_asp s e ++ added (of_el e evs)).
Proof.
  intros Hn Hi Hw Ha Hu Hc w.
  assert (W0 : forall e, In e repo -> (0 <= i_accu (w e))%Z).
  { intros e He. destruct (Hc e He) as [its [H1 H2]]. unfold w, replay.
    assert (E : fold_left (p1 t0) (of_el e evs) (0%Z, info0) = fold_left (p1 t0) (of_el e (filter (fun x => match snd x with PAdd _ => false | _ => true end) evs)) (0%Z, info0)).
    { clear. generalize (0%Z, info0). induction evs as [|[k v] evs IH]; intros x; [reflexivity|]. unfold of_el in *. cbn [filter fst snd].
      destruct v; cbn [filter fst]; destruct (Nat.eqb k e); cbn [map fold_left snd]; try apply IH. destruct x; apply IH. }
    rewrite E. destruct (replay_counts t0 _ _ H1 (0%Z, info0)) as [_ ->]. cbn [snd info0 i_accu].
    pose proof (total_nonneg duration its (fun x Hx => ltac:(specialize (H2 x Hx); unfold duration; lia))). lia. }
  destruct (after_run t0 repo s evs Hn Hu) as [ref [s1 [E1 [Hr HJ]]]].
  assert (Hinfo : forall e, In e repo -> info_of s1 e = Some (w e)).
  { intros e He. destruct (j_in _ _ _ _ _ _ _ HJ e He) as [_ [A B]]. unfold info_of. rewrite A. exact B. }
  destruct (collect_paths_full g Hw Ha) as [paths [EP [P1 [_ [P3 [P4 P5]]]]]].
  destruct (longest_spec repo w s1 Hinfo paths [] 0%Z) as [p [EL [L1 [L2 [L3 L4]]]]]; [intros q Hq; intros y Hy; apply Hi, (P1 q Hq); exact Hy|reflexivity|].
  assert (Hp : p = [] \/ In p paths) by exact L1.
  assert (Hpi : incl p (els g)) by (destruct Hp as [->|Hp]; [intros ? []|apply P1; exact Hp]).
  assert (Hpr : incl p repo) by (intros y Hy; apply Hi, Hpi; exact Hy).
  destruct (mark_fold repo ref w s1 Hr) with (p := p) as [M1 [M2 [M3 M4]]]; [intros e He; destruct (j_in _ _ _ _ _ _ _ HJ e He) as [_ [A B]]; auto|exact Hpr|].
  set (s2 := fold_left mark_one p s1) in *.
  destruct (recover_fold repo true s2 Hn) as [R1 [R2 [R3 [R4 _]]]].
  { intros e He. rewrite M1. destruct (j_in _ _ _ _ _ _ _ HJ e He) as [A _]. rewrite A. destruct (p_asp s e); discriminate. }
  fold (recover s2 repo) in R1, R2, R3, R4.
  exists ref, p, (info_of s2), (snd (recover s2 repo)).
  split. { unfold perf. rewrite E1. unfold mark. rewrite EP, EL. fold s2. rewrite (surjective_pairing (recover s2 repo)), R1. reflexivity. }
  split. { intros e He. unfold info_of. rewrite M2. destruct (j_in _ _ _ _ _ _ _ HJ e He) as [_ [A _]]. rewrite A, (M4 e He).
    unfold w, replay. rewrite replay_long. cbn [snd info0 i_long]. rewrite orb_false_r. reflexivity. }
  split. { destruct Hp as [->|Hp]; [exact I|apply P1; exact Hp]. }
  split; [exact Hpi|].
  split. { intros He Hp0. subst p. destruct (els g) as [|x l] eqn:EG; [congruence|]. destruct (P3 x (or_introl eq_refl)) as [q [Hq Hx]].
    destruct (L4 eq_refl) as [K|K]; [apply (P4 [] K); reflexivity|]. specialize (K q Hq).
    assert (0 <= cost w q)%Z by (apply total_nonneg; intros y Hy; apply W0, Hi, (P1 q Hq); exact Hy). lia. }
  split. { intros Hne. destruct Hp as [->|Hp]; [congruence|apply P4; exact Hp]. }
  split. { intros q Hq Hch. destruct q as [|d m]; [change (cost w []) with 0%Z; lia|].
    destruct (P5 d m (Hq d (or_introl eq_refl)) Hch) as [a [b Hab]]. pose proof (L3 _ Hab) as K. pose proof (P1 _ Hab) as [_ Q].
    unfold cost in *. rewrite !total_app in K.
    assert (0 <= total (fun e => i_accu (w e)) a)%Z by (apply total_nonneg; intros y Hy; apply W0, Hi, Q; apply in_or_app; left; exact Hy).
    assert (0 <= total (fun e => i_accu (w e)) b)%Z by (apply total_nonneg; intros y Hy; apply W0, Hi, Q; apply in_or_app; right; apply in_or_app; right; exact Hy). lia. }
  split.
  - intros e He. destruct (j_in _ _ _ _ _ _ _ HJ e He) as [A [B _]]. destruct (R2 e He) as [C D]. rewrite C, D, M1, A. split; [reflexivity|]. split; [reflexivity|].
    apply (R4 e (ref e) He). rewrite M2. exact B.
  - intros e He. destruct (R3 e He) as [C _]. rewrite C, M1. apply (j_out _ _ _ _ _ _ _ HJ e He).
Qed.

Lemma noadd_filter evs : no_add evs -> filter (fun x : nat * pev => match snd x with PAdd _ => false | _ => true end) evs = evs.
Proof.
  intros H. induction evs as [|[k v] evs IH]; [reflexivity|]. cbn [filter snd].
  rewrite IH by (intros a n Hn; apply (H a n); right; exact Hn). destruct v; try reflexivity. exfalso. apply (H k n). left; reflexivity.
Qed.
Ltac use_setting H :=
  destruct (perf_ok _ _ _ _ _ (ps_repo _ _ _ _ _ H) (ps_els _ _ _ _ _ H) (ps_wf _ _ _ _ _ H) (ps_acyclic _ _ _ _ _ H) (ps_user _ _ _ _ _ H)
    ltac:(rewrite (noadd_filter _ (ps_noadd _ _ _ _ _ H)); exact (ps_its _ _ _ _ _ H))) as [ref [p [rep [s' [E [R [C1 [C2 [C3 [C4 [C5 [A1 A2]]]]]]]]]]]].

(** C37: perf succeeds, and reports for every element of the repository, also those inside groups, the number of its iterations, the sum of their durations,
    when its first iteration began and when its last one finished, counted from the moment perf started
    (the first is only right when it is not that very moment: the code takes 0 for "not set"). *)
Theorem C37_report : forall repo g t0 evs s, perf_setting repo g t0 evs s ->
  exists rep s', perf repo g t0 evs true s = Some (true, rep, s') /\
  forall e its, In e repo -> iterations (of_el e evs) its -> exists i, rep e = Some i /\
    i_loop i = length its /\ i_accu i = total duration its /\
    (forall b, first_begin (of_el e evs) = Some b -> b <> t0 -> i_first i = (b - t0)%Z) /\
    (forall f, last_finish (of_el e evs) = Some f -> i_last i = (f - t0)%Z) /\
    (of_el e evs = [] -> i_first i = 0%Z) /\ (last_finish (of_el e evs) = None -> i_last i = 0%Z).
Proof.
  intros repo g t0 evs s H. use_setting H. exists rep, s'. split; [exact E|]. intros e its He Hit. eexists. split; [apply R; exact He|].
  cbn [i_loop i_first i_last i_accu]. unfold replay. destruct (replay_counts t0 _ _ Hit (0%Z, info0)) as [K1 K2]. rewrite K1, K2. cbn [snd info0 i_loop i_accu].
  split; [reflexivity|]. split; [lia|]. split; [|split; [|split]].
  - intros b Hb Hn. apply replay_first; auto.
  - intros f Hf. rewrite replay_last, Hf. reflexivity.
  - intros ->. reflexivity.
  - intros Hf. rewrite replay_last, Hf. reflexivity.
Qed.

(** C37: the elements marked are those of one path through the dependencies of the pipeline's own elements, from one with no dependency to one on which none depends,
    and no chain of dependencies has a larger total cost. *)
Theorem C37_longest_path : forall repo g t0 evs s, perf_setting repo g t0 evs s ->
  exists rep s' p, perf repo g t0 evs true s = Some (true, rep, s') /\
  chain (edge g) p /\ incl p (els g) /\ (els g <> [] -> p <> []) /\ (p <> [] -> dep g (hd 0 p) = [] /\ succ g (last p 0) = []) /\
  (forall e i, In e repo -> rep e = Some i -> (i_long i = true <-> In e p)) /\
  (forall q, incl q (els g) -> chain (edge g) q -> (report_cost rep q <= report_cost rep p)%Z).
Proof.
  intros repo g t0 evs s H. use_setting H. exists rep, s', p. split; [exact E|]. do 4 (split; [assumption|]). split.
  - intros e i He Hi. rewrite (R e He) in Hi. injection Hi as <-. cbn [i_long]. apply memb_in.
  - assert (EC : forall q, incl q (els g) -> report_cost rep q = cost (fun e => snd (replay t0 (of_el e evs))) q).
    { intros q Hq. unfold report_cost, cost. induction q as [|x q IH]; [reflexivity|]. unfold total in *. cbn [fold_right].
      rewrite (R x) by (apply (ps_els _ _ _ _ _ H), Hq; left; reflexivity). cbn [i_accu]. f_equal. apply IH. intros y Hy; apply Hq; right; exact Hy. }
    intros q Hq Hch. rewrite !EC by assumption. apply C5; assumption.
Qed.

(** C37: afterwards every element has the aspects it had, in the same order, and the elements of the repository point to no perf data any more. *)
Theorem C37_aspects_restored : forall repo g t0 evs s, perf_setting repo g t0 evs s ->
  exists rep s', perf repo g t0 evs true s = Some (true, rep, s') /\ (forall e, p_asp s' e = p_asp s e) /\ (forall e, In e repo -> p_info s' e = None) /\ only_user s'.
Proof.
  intros repo g t0 evs s H. use_setting H. exists rep, s'. split; [exact E|].
  assert (K : forall e, p_asp s' e = p_asp s e).
  { intros e. destruct (in_dec Nat.eq_dec e repo) as [He|He].
    - destruct (A1 e He) as [-> _]. rewrite (added_nil e evs (ps_noadd _ _ _ _ _ H)). apply removelast_last.
    - rewrite (A2 e He), (added_nil e evs (ps_noadd _ _ _ _ _ H)). apply app_nil_r. }
  split; [exact K|]. split; [intros e He; apply A1; exact He|]. intros e a Ha. rewrite K in Ha. exact (ps_user _ _ _ _ _ H e a Ha).
Qed.

(** * C82: perf leaves nothing behind, whatever happened. *)
(** True when the run succeeds and no body adds an aspect (also when it is called again and again: the state it leaves satisfies its own hypothesis). *)
Theorem C82_clean_after_success_partial : forall repo g t0 evs s, perf_setting repo g t0 evs s ->
  exists rep s', perf repo g t0 evs true s = Some (true, rep, s') /\ forall e, p_asp s' e = p_asp s e.
Proof. intros repo g t0 evs s H. destruct (C37_aspects_restored repo g t0 evs s H) as [rep [s' [E [K _]]]]. exists rep, s'. auto. Qed.

(** False whenever the run fails: every element of the repository keeps the aspect that perf added. *)
Theorem C82_failed_run_refuted : forall repo g t0 evs s, NoDup repo -> only_user s ->
  exists rep s', perf repo g t0 evs false s = Some (false, rep, s') /\
  forall e, In e repo -> (exists cur ref, In (APerf t0 cur ref) (p_asp s' e)) /\ p_asp s' e <> p_asp s e /\ p_info s' e <> None.
Proof.
  intros repo g t0 evs s Hn Hu. destruct (after_run t0 repo s evs Hn Hu) as [ref [s1 [E [Hr HJ]]]].
  exists (fun _ => None), s1. unfold perf. rewrite E. split; [reflexivity|]. intros e He. destruct (j_in _ _ _ _ _ _ _ HJ e He) as [A [B _]]. rewrite A, B.
  split; [eexists; eexists; apply in_or_app; right; left; reflexivity|]. split; [|discriminate].
  intros K. assert (In (APerf t0 (fst (replay t0 (of_el e evs))) (ref e)) (p_asp s e)) as Q by (rewrite <- K; apply in_or_app; right; left; reflexivity).
  destruct (Hu e _ Q) as [n Hn']. discriminate.
Qed.

(** False also when a body adds an aspect to its element during the run: perf takes the user's aspect away in place of its own, which is left with freed memory;
    the next iteration of that element is undefined behaviour. *)
Theorem C82_added_aspect_refuted : forall repo g t0 evs s e n, NoDup repo -> incl (els g) repo -> wf g -> acyclic g -> only_user s ->
  (forall k, In k repo -> exists its, iterations (of_el k (filter (fun x => match snd x with PAdd _ => false | _ => true end) evs)) its /\ clock_ok t0 its) ->
  In e repo -> In (e, PAdd n) evs ->
  exists rep s', perf repo g t0 evs true s = Some (true, rep, s') /\ forall now, p_step s' (e, PBegin now) = None.
Proof.
  intros repo g t0 evs s e n Hn Hi Hw Ha Hu Hc He Hadd.
  destruct (perf_ok repo g t0 evs s Hn Hi Hw Ha Hu Hc) as [ref [p [rep [s' [E [_ [_ [_ [_ [_ [_ [A1 _]]]]]]]]]]]].
  exists rep, s'. split; [exact E|]. intros now. destruct (A1 e He) as [A [_ B]].
  assert (Hne : added (of_el e evs) <> []).
  { intros K. assert (Q : In (AUser n) (added (of_el e evs))); [|rewrite K in Q; destruct Q]. unfold added. apply in_flat_map. exists (PAdd n). split; [|left; reflexivity].
    unfold of_el. apply in_map_iff. exists (e, PAdd n). split; [reflexivity|]. apply filter_In. split; [exact Hadd|]. cbn [fst]. apply Nat.eqb_refl. }
  destruct (added (of_el e evs)) as [|a l]; [congruence|].
  cbn [p_step]. rewrite A. rewrite removelast_app by discriminate. cbn [removelast].
  rewrite (each_app (begin_one now) (p_asp s e) _ _ (p_heap s') (p_asp s e)) by (apply each_users; [reflexivity|exact (Hu e)]).
  cbn [each begin_one]. rewrite B. reflexivity.
Qed.

(** * Examples *)
(** A diamond 0 -> {1, 2} -> 3; element 7 lives inside group 2. Element 1 iterates twice; 0 and 7 have aspects of the user. *)
Definition xg : graph := mkGraph [0; 1; 2; 3] (fun e => match e with 1 | 2 => [0] | 3 => [1; 2] | _ => [] end) (fun e => match e with 0 => [1; 2] | 1 | 2 => [3] | _ => [] end).
Definition xs : pst := mkP (fun e => match e with 0 => [AUser 5] | 7 => [AUser 6; AUser 5] | _ => [] end) (fun _ => None) (fun _ => None) 0.
Definition xevs : list (nat * pev) :=
  [(0, PBegin 110%Z); (0, PFinish 120%Z); (1, PBegin 121%Z); (2, PBegin 122%Z); (7, PBegin 123%Z); (1, PFinish 131%Z); (1, PBegin 132%Z); (7, PFinish 150%Z); (2, PFinish 151%Z); (1, PFinish 142%Z); (3, PBegin 152%Z); (3, PFinish 160%Z)].
Example xwf : wf xg.
Proof.
  constructor; cbn [els dep succ xg].
  - repeat (constructor; [cbn; lia|]). constructor.
  - intros e He. assert (K : e = 0 \/ e = 1 \/ e = 2 \/ e = 3) by (cbn in He; lia). destruct K as [->|[->|[->| ->]]]; (split; [repeat (constructor; [cbn; lia|]); constructor|intros y Hy; cbn in *; lia]).
  - intros e He. assert (K : e = 0 \/ e = 1 \/ e = 2 \/ e = 3) by (cbn in He; lia). destruct K as [->|[->|[->| ->]]]; (split; [repeat (constructor; [cbn; lia|]); constructor|intros y Hy; cbn in *; lia]).
  - intros d e Hd He. assert (K : e = 0 \/ e = 1 \/ e = 2 \/ e = 3) by (cbn in He; lia). assert (K' : d = 0 \/ d = 1 \/ d = 2 \/ d = 3) by (cbn in Hd; lia).
    destruct K as [->|[->|[->| ->]]]; destruct K' as [->|[->|[->| ->]]]; cbn; lia.
Qed.
Example xacyclic : acyclic xg.
Proof.
  assert (H : forall d e, path xg d e -> d < e).
  { induction 1 as [d e [H1 H2]|? ? ? _ ? _ ?]; [|lia]. cbn in H1, H2. assert (K : e = 0 \/ e = 1 \/ e = 2 \/ e = 3) by lia. destruct K as [->|[->|[->| ->]]]; cbn in H2; lia. }
  intros e He. specialize (H e e He). lia.
Qed.
Example xsetting : perf_setting [0; 1; 2; 7; 3] xg 100 xevs xs.
Proof.
  constructor.
  - repeat (constructor; [cbn; lia|]). constructor.
  - intros y Hy. cbn in *. lia.
  - exact xwf.
  - exact xacyclic.
  - intros e a. cbn [p_asp xs]. destruct e as [|[|[|[|[|[|[|[|e]]]]]]]]; cbn; intros H; intuition; eauto.
  - intros e n H. cbn in H. repeat (destruct H as [H|H]; [discriminate H|]). exact H.
  - intros e He. assert (K : e = 0 \/ e = 1 \/ e = 2 \/ e = 7 \/ e = 3) by (cbn in He; lia).
    destruct K as [->|[->|[->|[->| ->]]]]; vm_compute of_el; eexists; (split; [repeat apply it_one; apply it_nil|intros x Hx; cbn in Hx; repeat (destruct Hx as [<-|Hx]; [cbn; lia|]); destruct Hx]).
Qed.
(** The longest path is 0, 2, 3: element 2 took 29, the two iterations of element 1 together 20. *)
Example C37_witness : exists rep s', perf [0; 1; 2; 7; 3] xg 100 xevs true xs = Some (true, rep, s') /\
  map rep [0; 1; 2; 3; 7] = [Some (mkInfo 1 10 20 10 true); Some (mkInfo 2 21 42 20 false); Some (mkInfo 1 22 51 29 true); Some (mkInfo 1 52 60 8 true); Some (mkInfo 1 23 50 27 false)] /\
  map (p_asp s') [0; 1; 7] = [[AUser 5]; []; [AUser 6; AUser 5]].
Proof. eexists; eexists. split; [vm_compute; reflexivity|]. split; vm_compute; reflexivity. Qed.
(** Element 1 fails in its second iteration: perf returns the error, and the aspects stay; a second, successful perf leaves those of the first. *)
Example C82_failed_witness : exists s' rep s'', perf [0; 1; 2; 7; 3] xg 100 (firstn 10 xevs) false xs = Some (false, fun _ => None, s') /\
  map (p_asp s') [0; 3] = [[AUser 5; APerf 100 110 0]; [APerf 100 0 4]] /\
  perf [0; 1; 2; 7; 3] xg 200 [] true s' = Some (true, rep, s'') /\ map (p_asp s'') [0; 3] = [[AUser 5; APerf 100 110 0]; [APerf 100 0 4]].
Proof. eexists; eexists; eexists. split; [vm_compute; reflexivity|]. split; [vm_compute; reflexivity|]. split; vm_compute; reflexivity. Qed.
Example C82_added_witness : exists rep s', perf [0] (mkGraph [0] (fun _ => []) (fun _ => [])) 100 [(0, PBegin 110%Z); (0, PAdd 9); (0, PFinish 120%Z)] true xs = Some (true, rep, s') /\
  p_asp s' 0 = [AUser 5; APerf 100 110 0] /\ p_step s' (0, PBegin 300%Z) = None.
Proof. eexists; eexists. split; [vm_compute; reflexivity|]. split; vm_compute; reflexivity. Qed.

Print Assumptions C37_report.
Print Assumptions C37_longest_path.
Print Assumptions C37_aspects_restored.
Print Assumptions C82_clean_after_success_partial.
Print Assumptions C82_failed_run_refuted.
Print Assumptions C82_added_aspect_refuted.
