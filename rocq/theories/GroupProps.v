(** C19-C23, C55: group elements. *)
From Verif Require Import GroupModel GroupProofs SomeProofs ElemProofs StatusProofs StatusProps.
From Coq Require Import Lia.
Local Open Scope nat_scope.
Local Open Scope list_scope.

Lemma first_error_dec l : {e | first_error l e} + {Forall (fun v => (0 <= code v)%Z) l}.
Proof.
  destruct (find isErr l) as [e|] eqn:E; [left; exists e; now apply find_first|right].
  apply Forall_forall. intros x Hx. pose proof (find_none _ _ E x Hx) as H. unfold isErr in H. apply Z.ltb_ge in H. exact H.
Qed.
Lemma first_error_neg l e : first_error l e -> (code e < 0)%Z.
Proof. intros (a & b & _ & H & _). exact H. Qed.

(** * C19 *)
(** The children called are an initial part of the list, in order, each answering as it does at that point; either all were
    called and none failed (the result is no error, its code is the last child's), or the last one called is the first to
    fail and its failure is the result (an error status is returned as it is, the crash code is thrown again). *)
Theorem C19_cluster : forall ask children l l' o, cluster_run ask children l = (l', o) ->
  exists d, l' = l ++ d /\ gfaithful ask l d /\ map fst d = map GRun (firstn (List.length d) children) /\
    ((List.length d = List.length children /\ Forall (fun e => child_ok (snd e)) d /\
        exists v, o = Val v /\ (0 <= code v)%Z /\ (d <> [] -> exists c r w, last d (c, r) = (c, r) /\ In (c, r) d /\ g_out r = Val w /\ code v = code w)) \/
     (exists d0 e, d = d0 ++ [e] /\ Forall (fun e => child_ok (snd e)) d0 /\ fail_out (snd e) o)).
Proof.
  intros ask children l l' o E. destruct (cluster_loop_spec ask children st_default l l' o ltac:(cbn; unfold STATUS_OK; lia) E) as (d & H1 & H2 & H3 & H4).
  exists d. split; [exact H1|]. split; [exact H2|]. split; [exact H3|]. destruct H4 as [(H4 & H5 & v & H6 & H7 & H8)|H4]; [left|now right].
  split; [exact H4|]. split; [exact H5|]. exists v. split; [exact H6|]. split; [exact H7|]. intro Hd.
  destruct (exists_last Hd) as (d0 & [c r] & ->). rewrite map_app in H8. cbn in H8. rewrite last_last in H8.
  apply Forall_app in H5. destruct H5 as [_ H5]. inversion H5 as [|? ? (w & Hw & _) _]; subst. cbn in Hw. rewrite Hw in H8.
  exists c, r, w. rewrite last_last. split; [easy|]. split; [rewrite in_app_iff; right; now left|]. auto.
Qed.
Print Assumptions C19_cluster.
(** When every child returns code 0, the result is the status the cluster started from. *)
Theorem C19_all_ok : forall ask children l, (forall l c, exists v, g_out (ask l (GRun c)) = Val v /\ code v = 0%Z) ->
  exists d, cluster_run ask children l = (l ++ d, Val st_default) /\ map fst d = map GRun children.
Proof.
  intros ask children l H. unfold cluster_run. revert l. induction children as [|c cs IH]; intro l.
  - exists []. rewrite app_nil_r. auto.
  - cbn [cluster_loop]. destruct (H l c) as (v & -> & Hv).
    assert (E : st_assign st_default v = st_default) by (unfold st_assign; cbn; rewrite Hv; reflexivity).
    rewrite E, check_status_ok by (cbn; unfold STATUS_OK; lia). destruct (IH (l ++ [(GRun c, ask l (GRun c))])) as (d & E1 & Hd).
    exists ((GRun c, ask l (GRun c)) :: d). rewrite E1, <- app_assoc. cbn. now rewrite Hd.
Qed.
Print Assumptions C19_all_ok.

Definition ask1 : gask := fun l c => match c with
  | GRun 3 => mkG (Val (mkStatus (-5) "bad")) true
  | GRun _ => mkG (Val st_default) true
  | GMatch c => mkG (Val st_default) (Nat.odd c)
  end.
Example C19_case : map fst (fst (cluster_run ask1 [0; 3; 1] [])) = [GRun 0; GRun 3] /\
  match snd (cluster_run ask1 [0; 3; 1] []) with Val v => code v = (-5)%Z | _ => False end.
Proof. vm_compute. auto. Qed.
Example C19_case_ok : map fst (fst (cluster_run ask1 [0; 1; 2] [])) = [GRun 0; GRun 1; GRun 2] /\ snd (cluster_run ask1 [0; 1; 2] []) = Val st_default.
Proof. vm_compute. auto. Qed.

(** * C20 *)
(** The child a condition runs. *)
Inductive chosen (children : list nat) (choice : Z) : option nat -> Prop :=
| ch_idx i c : choice = Z.of_nat i -> nth_error children i = Some c -> chosen children choice (Some c)
| ch_last cs c : choice = (-1)%Z -> children = cs ++ [c] -> chosen children choice (Some c)
| ch_none : (choice < -1 \/ Z.of_nat (List.length children) <= choice)%Z \/ children = [] -> chosen children choice None.
Theorem C20_chosen_total : forall children choice, exists x, chosen children choice x.
Proof.
  intros children choice. destruct children as [|c cs]; [exists None; apply ch_none; auto|].
  destruct (Z.eq_dec choice (-1)) as [->|H].
  - destruct (@exists_last _ (c :: cs) ltac:(easy)) as (a & b & E). exists (Some b). now apply (ch_last _ _ a).
  - destruct (Z_lt_ge_dec choice 0); [exists None; apply ch_none; left; lia|].
    destruct (nth_error (c :: cs) (Z.to_nat choice)) as [x|] eqn:E.
    + exists (Some x). apply (ch_idx _ _ (Z.to_nat choice)); [lia|exact E].
    + exists None. apply nth_error_None in E. apply ch_none. left. lia.
Qed.
Print Assumptions C20_chosen_total.
Theorem C20_condition : forall ask children choice l x, chosen children choice x ->
  match x with
  | None => condition_run ask children choice l = (l, Val st_default)
  | Some c => exists o, condition_run ask children choice l = (l ++ [(GRun c, ask l (GRun c))], o) /\
      match g_out (ask l (GRun c)) with
      | Val v => exists w, o = Val w /\ code w = code v /\ ((code v < 0)%Z -> w = v)
      | e => o = e
      end
  end.
Proof.
  intros ask children choice l x H. unfold condition_run.
  assert (R : forall c, exists o, (l ++ [(GRun c, ask l (GRun c))], match g_out (ask l (GRun c)) with Val v => Val (st_assign st_default v) | o => o end) =
     (l ++ [(GRun c, ask l (GRun c))], o) /\ match g_out (ask l (GRun c)) with Val v => exists w, o = Val w /\ code w = code v /\ ((code v < 0)%Z -> w = v) | e => o = e end).
  { intro c. eexists. split; [reflexivity|]. destruct (g_out (ask l (GRun c))) as [v|m| |]; try reflexivity.
    exists (st_assign st_default v). split; [easy|]. split; [apply assign_code|]. intro. now apply assign_err. }
  destruct H as [i c -> H|cs c -> ->|H].
  - assert (Hi : i < List.length children) by (apply nth_error_Some; congruence).
    replace (Z.of_nat i =? -1)%Z with false by (symmetry; apply Z.eqb_neq; lia). cbn [andb].
    replace (0 <=? Z.of_nat i)%Z with true by (symmetry; apply Z.leb_le; lia).
    replace (Z.of_nat i <? Z.of_nat (List.length children))%Z with true by (symmetry; apply Z.ltb_lt; lia). cbn [andb].
    rewrite Nat2Z.id. rewrite (nth_error_nth _ _ 0 H). apply R.
  - cbn [Z.eqb andb]. replace (match cs ++ [c] with [] => true | _ :: _ => false end) with false by (now destruct cs). cbn [negb Pos.eqb].
    rewrite last_last. apply R.
  - destruct H as [H| ->].
    + replace (choice =? -1)%Z with false by (symmetry; apply Z.eqb_neq; lia). cbn [andb].
      destruct (Z.leb_spec 0 choice); cbn [andb]; [|reflexivity]. now replace (choice <? Z.of_nat (List.length children))%Z with false by (symmetry; apply Z.ltb_ge; lia).
    + cbn [negb]. rewrite Bool.andb_false_r. cbn [List.length Z.of_nat].
      destruct (Z.leb_spec 0 choice); cbn [andb]; [|reflexivity]. now replace (choice <? 0)%Z with false by (symmetry; apply Z.ltb_ge; lia).
Qed.
Print Assumptions C20_condition.
Example C20_case : chosen [4; 5; 6] (-1) (Some 6) /\ chosen [4; 5; 6] 1 (Some 5) /\ chosen [4; 5; 6] 3 None /\ chosen [] (-1) None /\
  map fst (fst (condition_run ask1 [4; 5; 6] (-1) [])) = [GRun 6].
Proof.
  split; [now apply (ch_last _ _ [4; 5])|]. split; [now apply (ch_idx _ _ 1)|]. split; [apply ch_none; cbn; lia|]. split; [apply ch_none; auto|reflexivity].
Qed.

(** * C21 *)
(** Serial: [multi_calls] lists, child after child, the question and, when it matched, the run; the failing child is the
    last one. *)
Theorem C21_serial : forall ask children l l' o, serial_multi_run ask children l = (l', o) ->
  exists d x, l' = l ++ d /\ gfaithful ask l d /\ multi_calls children d x /\
    match x with None => exists v, o = Val v /\ (0 <= code v)%Z | Some r => fail_out r o end.
Proof. intros ask children l l' o E. apply (serial_multi_spec ask children st_default l l' o); [cbn; unfold STATUS_OK; lia|exact E]. Qed.
Print Assumptions C21_serial.

Definition asked (d : glog) : list (nat * bool) := flat_map (fun e => match fst e with GMatch c => [(c, g_flag (snd e))] | _ => [] end) d.
Definition ran (d : glog) : list nat := flat_map (fun e => match fst e with GRun c => [c] | _ => [] end) d.
(** The children that ran are exactly those asked that matched, in order; those asked are an initial part of the children,
    and all of them unless a child failed. *)
Theorem C21_serial_exact : forall children d x, multi_calls children d x ->
  ran d = map fst (filter snd (asked d)) /\ map fst (asked d) = firstn (List.length (asked d)) children /\
  (x = None -> map fst (asked d) = children).
Proof.
  intros children d x H. induction H as [|c cs m d x Hm H IH|c cs m r d x Hm Hr H IH|c cs m r Hm Hr]; cbn; rewrite ?Hm; cbn.
  - auto.
  - destruct IH as (IH1 & IH2 & IH3). fold (ran d) (asked d). split; [exact IH1|]. split; [now rewrite IH2 at 1|]. intro E. now rewrite IH3.
  - destruct IH as (IH1 & IH2 & IH3). fold (ran d) (asked d). split; [now rewrite IH1|]. split; [now rewrite IH2 at 1|]. intro E. now rewrite IH3.
  - repeat split; discriminate.
Qed.
Print Assumptions C21_serial_exact.
Example C21_serial_case : map fst (fst (serial_multi_run ask1 [2; 1; 3; 5] [])) = [GMatch 2; GMatch 1; GRun 1; GMatch 3; GRun 3] /\
  match snd (serial_multi_run ask1 [2; 1; 3; 5] []) with Val v => code v = (-5)%Z | _ => False end.
Proof. vm_compute. auto. Qed.

(** Parallel: when it returns a status, every child was asked once, in order, exactly the matching ones were started, once
    each, all of them had ended, with a status, and the result is the first error in the order of the children. *)
Theorem C21_parallel : forall children ls s st, par_steps (par_init children) ls = Some s -> p_main s = PRet (Val st) ->
  map fst (matches (p_evs s)) = children /\
  Permutation (starts (p_evs s)) (matched (p_evs s)) /\
  (exists pre, p_evs s = pre ++ [PEReturn (Val st)] /\ returns pre = [] /\
    exists vs, Permutation (ends pre) (combine (matched (p_evs s)) (map Val vs)) /\ List.length vs = List.length (matched (p_evs s)) /\
      ((Forall (fun v => (0 <= code v)%Z) vs /\ st = st_default) \/ first_error vs st)).
Proof.
  intros children ls s st E Hm. destruct (PInv_steps children ls _ s (PInv_init children) E) as (I1 & I2 & I3 & I4).
  rewrite Hm in I4. destruct I4 as (I4 & (pre & Ep & Hr) & vs & J & Hs).
  split; [exact I4|]. split.
  - rewrite I2. rewrite <- I1. clear -J. unfold joined in J. revert vs J. induction (p_tasks s) as [|[c t] ts IH]; intros [|v vs] J; try discriminate; [constructor|].
    cbn in J. inversion J; subst. cbn. constructor. now apply (IH vs).
  - exists pre. split; [exact Ep|]. split; [exact Hr|]. exists vs.
    assert (L : List.length vs = List.length (matched (p_evs s))).
    { rewrite <- I1, map_length. rewrite <- (map_length snd (p_tasks s)), J. now rewrite map_length. }
    split; [|split; [exact L|]].
    + rewrite Ep, ends_app in I3. cbn in I3. rewrite app_nil_r in I3. rewrite I3, <- I1. clear -J. unfold joined in J. revert vs J.
      induction (p_tasks s) as [|[c t] ts IH]; intros [|v vs] J; try discriminate; [constructor|]. cbn in J. inversion J; subst. cbn. constructor. now apply (IH vs).
    + destruct (C01_sum_is_first_error st_default vs) as (_ & S1 & S2). destruct (first_error_dec vs) as [[e He]|Hn].
      * right. rewrite Hs, (S1 ltac:(cbn; unfold STATUS_OK; lia) e He). exact He.
      * left. split; [exact Hn|]. rewrite Hs. apply S2; [cbn; unfold STATUS_OK; lia|exact Hn].
Qed.
Print Assumptions C21_parallel.
(** At any moment: nothing was started that did not match, and nothing twice (as many starts as matching questions). *)
Theorem C21_parallel_only_matching : forall children ls s, par_steps (par_init children) ls = Some s ->
  exists rest, Permutation (starts (p_evs s) ++ rest) (matched (p_evs s)).
Proof.
  intros children ls s E. destruct (PInv_steps children ls _ s (PInv_init children) E) as (I1 & I2 & _).
  exists (flat_map (fun t => match snd t with PQueued => [fst t] | _ => [] end) (p_tasks s)). rewrite I2, <- I1. clear.
  induction (p_tasks s) as [|[c [| |o]] ts IH]; cbn; [constructor| | |].
  - rewrite <- Permutation_middle. now constructor.
  - now constructor.
  - now constructor.
Qed.
Print Assumptions C21_parallel_only_matching.
(** It cannot get stuck and no schedule is longer than 4 steps per child plus 2. *)
Theorem C21_parallel_ends : forall children ls s, par_steps (par_init children) ls = Some s ->
  List.length ls <= 4 * List.length children + 2 /\ ((forall o, p_main s <> PRet o) -> exists lb s', par_step s lb = Some s').
Proof.
  intros children ls s E. split.
  - apply (par_bounded 0) in E. unfold par_measure in E at 2. cbn in E. lia.
  - apply (par_progress children). exact (PInv_steps children ls _ s (PInv_init children) E).
Qed.
Print Assumptions C21_parallel_ends.
Definition err5 : status := mkStatus (-5) "bad".
Example C21_parallel_case :
  match par_steps (par_init [0; 1; 2]) [PLMain true; PLMain false; PLStart 0; PLMain true; PLMain true; PLStart 1; PLEnd 1 (Val err5); PLEnd 0 (Val st_default);
    PLMain true; PLMain true; PLMain true] with
  | Some s => p_main s = PRet (Val err5) /\ starts (p_evs s) = [0; 2]
  | None => False end.
Proof. vm_compute. auto. Qed.

(** * C22 *)
(** One execution with trigger number [w], started when no task of an earlier execution is left; [re] are its events.
    If it returned [r]: the children counted before that are different children of the group; each of them had executed
    its body and reported that status (or was still switched off by an earlier execution, see C23); [r] is no error only
    if at least [w] of them were counted and none failed, and otherwise [r] is the first error counted. *)
Theorem C22_returns : forall n w s0 ls s, quiet s0 -> (0 <= w <= Z.of_nat n)%Z -> forallb (fun l => negb (is_run l)) ls = true ->
  some_steps n s0 (SLRun w :: ls) = Some s ->
  exists re, s_evs s = s_evs s0 ++ SERun w :: re /\ List.length (rets_of re) <= 1 /\
    (forall r, s_main s = SDone r -> In (SERet r) re) /\
    (forall r a b, re = a ++ SERet r :: b ->
       NoDup (map fst (counted_of a)) /\
       (forall c v, In (c, v) (counted_of a) -> c < n /\
          ((In (SEBody c) a /\ In (SEEnd c v) a) \/ (s_tmo s0 c = true /\ v = st_default /\ In (SESkip c) a))) /\
       (code r = 0%Z /\ (w <= Z.of_nat (List.length (counted_of a)))%Z /\ (forall c v, In (c, v) (counted_of a) -> (0 <= code v)%Z) \/
        first_error (map snd (counted_of a)) r)).
Proof.
  intros n w s0 ls s Q Hw Hl E. cbn [some_steps] in E. destruct (some_step n s0 (SLRun w)) as [s1|] eqn:E1; [|discriminate].
  pose proof (SInv_start n w s0 Hw s1 Q E1) as I. pose proof (SInv_steps n w s0 Hw ls (proj2 Q) s1 s I Hl E) as (re & new & k & I1 & _ & _ & _ & _ & _ & _ & _ & _ & _ & I11).
  exists re. split; [exact I1|].
  assert (NR : (forall r, s_main s <> SDone r) -> rets_of re = []).
  { intro H. destruct (s_main s) as [|j| |[|]|j|r]; try tauto. now destruct (H r). }
  destruct (s_main s) as [|j| |b|j|r] eqn:Em; [contradiction| | | | |].
  1-4: assert (Z : rets_of re = []) by (apply NR; discriminate);
    (split; [rewrite Z; cbn; lia|]); (split; [intros; discriminate|]); intros r a b' ->; rewrite rets_app in Z; destruct (rets_of a); discriminate.
  destruct I11 as (Hk & a & b & Hre & R1 & R2 & F & ND & LT & Hr & Hc).
  split; [subst re; rewrite rets_app, R1; change (rets_of (SERet r :: b)) with (r :: rets_of b); rewrite R2; cbn; lia|].
  split; [intros r' H; inversion H; subst; rewrite in_app_iff; right; now left|].
  intros r' a' b' H'.
  assert (X : a' = a /\ r' = r).
  { rewrite Hre in H'. clear -H' R1 R2. revert a' H' . induction a as [|x a IH]; intros [|y a'] H'.
    - cbn in H'. inversion H'; auto.
    - cbn in H'. inversion H'; subst. rewrite rets_app in R2. cbn in R2. destruct (rets_of a'); discriminate.
    - cbn in H'. inversion H'; subst. discriminate.
    - cbn in H'. inversion H'; subst. change (y :: a) with ([y] ++ a) in R1. rewrite rets_app in R1. apply app_eq_nil in R1. destruct (IH (proj2 R1) a') as [-> ->]; auto. }
  destruct X as [-> ->]. split; [exact ND|]. split.
  - intros c v Hin. split; [now apply (LT c v)|]. destruct (F c v Hin) as [[]|H]; [left|right]; auto.
  - destruct (C01_sum_is_first_error (c0 s0) (map snd (counted_of a))) as (_ & S1 & S2). pose proof (c0_ok s0) as Hc0.
    destruct (first_error_dec (map snd (counted_of a))) as [[e He]|Hn].
    + right. rewrite (S1 ltac:(lia) e He) in Hr. pose proof (first_error_neg _ _ He) as Hneg. rewrite assign_err in Hr by (cbn; unfold STATUS_OK; lia). now rewrite Hr.
    + left. assert (Hs : st_sum (c0 s0) (map snd (counted_of a)) = c0 s0) by (apply S2; [lia|exact Hn]). rewrite Hs in Hr, Hc.
      split; [rewrite Hr, assign_code; exact Hc0|]. split.
      * destruct Hc as [Hc|Hc]; [exact Hc|]. unfold isErr in Hc. rewrite Hc0 in Hc. discriminate.
      * intros c v Hin. rewrite Forall_forall in Hn. apply Hn. apply (in_map snd) in Hin. exact Hin.
Qed.
Print Assumptions C22_returns.
(** A trigger number outside 0..n is rejected: an error is returned at once and no child is started. *)
Theorem C22_rejects : forall n w s0 s, (w < 0 \/ Z.of_nat n < w)%Z -> some_step n s0 (SLRun w) = Some s ->
  exists e, s_main s = SDone e /\ (code e < 0)%Z /\ s_evs s = s_evs s0 ++ [SERun w; SERet e] /\ s_tasks s = s_tasks s0 /\
    (forall c, s_tmo s c = s_tmo s0 c).
Proof.
  intros n w s0 s Hw E. cbn [some_step] in E.
  assert (E1 : ((w <? 0)%Z || (Z.of_nat n <? w)%Z) = true) by (apply Bool.orb_true_iff; destruct Hw; [left|right]; apply Z.ltb_lt; lia).
  rewrite E1 in E. exists (st_err "num is bigger than elements size.").
  destruct (s_main s0); try discriminate; inversion E; subst s; cbn; repeat split; lia.
Qed.
Print Assumptions C22_rejects.
(** Until it returns some step is always possible, other than a spurious wakeup or a new call; a caller that sleeps without
    having been notified has fewer than [w] children counted and no error; and every schedule without spurious wakeups,
    resets and new calls has a bounded number of steps. *)
Theorem C22_never_blocks : forall n w s0 ls s, quiet s0 -> (0 <= w <= Z.of_nat n)%Z -> forallb (fun l => negb (is_run l)) ls = true ->
  some_steps n s0 (SLRun w :: ls) = Some s ->
  ((forall r, s_main s <> SDone r) ->
     exists lb s', is_run lb = false /\ lb <> SLSpurious /\ lb <> SLReset /\ some_step n s lb = Some s') /\
  (forall re, s_evs s = s_evs s0 ++ SERun w :: re -> s_main s = SSleep false ->
     (Z.of_nat (List.length (counted_of re)) < w)%Z /\ forall c v, In (c, v) (counted_of re) -> (0 <= code v)%Z).
Proof.
  intros n w s0 ls s Q Hw Hl E. cbn [some_steps] in E. destruct (some_step n s0 (SLRun w)) as [s1|] eqn:E1; [|discriminate].
  pose proof (SInv_start n w s0 Hw s1 Q E1) as I. pose proof (SInv_steps n w s0 Hw ls (proj2 Q) s1 s I Hl E) as I'. split.
  - now apply (some_progress n w s0 Hw).
  - intros re Hre Hm. destruct I' as (re' & new & k & I1 & _ & _ & _ & _ & I6 & I7 & _ & _ & _ & I11). rewrite Hre in I1. apply app_inv_head in I1. inversion I1; subst re'.
    rewrite Hm in I11. destruct I11 as (_ & _ & _ & P). unfold some_pred in P. apply Bool.orb_false_iff in P. destruct P as [P1 P2]. apply Z.leb_gt in P1.
    split; [lia|]. intros c v Hin. destruct (C01_sum_is_first_error (c0 s0) (map snd (counted_of re))) as (_ & S1 & S2). pose proof (c0_ok s0) as Hc0.
    destruct (first_error_dec (map snd (counted_of re))) as [[e He]|Hn].
    + rewrite I7, (S1 ltac:(lia) e He) in P2. apply first_error_neg in He. unfold isErr in P2. apply Z.ltb_ge in P2. unfold STATUS_OK in P2. lia.
    + rewrite Forall_forall in Hn. apply Hn. apply (in_map snd) in Hin. exact Hin.
Qed.
Print Assumptions C22_never_blocks.
Theorem C22_bounded : forall n ls s s', forallb counts_down ls = true -> some_steps n s ls = Some s' -> List.length ls <= some_measure n s.
Proof. intros n ls s s'. apply some_bounded. Qed.
Print Assumptions C22_bounded.

Definition two_of_three : list slabel :=
  [SLMain; SLMain; SLMain; SLMain; SLStart 1; SLStart 0; SLMain; SLEnd 1 st_default; SLCount 1; SLEnd 0 st_default; SLCount 0; SLMain; SLMain; SLMain; SLMain; SLMain; SLMain].
Example C22_case : quiet some_init /\
  match some_steps 3 some_init (SLRun 2 :: two_of_three) with Some s => s_main s = SDone st_default | None => False end.
Proof. split; [split; [now left|easy]|vm_compute; reflexivity]. Qed.
Example C22_reject_case : match some_step 3 some_init (SLRun 4) with Some s => s_main s <> SDone st_default | None => False end.
Proof. vm_compute. discriminate. Qed.

(** * C23 *)
(** Executed again with every child's timeout mark cleared (at the first run, or after the end of the previous pipeline
    run) the children are executed again: OK means that at least [w] different children executed their body. *)
Theorem C23_runs_again_partial : forall n w s0 ls s r, quiet s0 -> (0 <= w <= Z.of_nat n)%Z -> (forall c, c < n -> s_tmo s0 c = false) ->
  forallb (fun l => negb (is_run l)) ls = true -> some_steps n s0 (SLRun w :: ls) = Some s -> s_main s = SDone r -> code r = 0%Z ->
  exists re cs, s_evs s = s_evs s0 ++ SERun w :: re /\ NoDup cs /\ (w <= Z.of_nat (List.length cs))%Z /\
    forall c, In c cs -> c < n /\ exists v, In (SEBody c) re /\ In (SEEnd c v) re /\ (0 <= code v)%Z.
Proof.
  intros n w s0 ls s r Q Hw Ht Hl E Hd Hr. destruct (C22_returns n w s0 ls s Q Hw Hl E) as (re & H1 & _ & H2 & H3).
  destruct (in_split _ _ (H2 r Hd)) as (a & b & Hab). destruct (H3 r a b Hab) as (ND & H4 & H5).
  exists re, (map fst (counted_of a)). split; [exact H1|]. split; [exact ND|].
  destruct H5 as [(_ & H5 & H6)|H5]; [|apply first_error_neg in H5; lia].
  split; [now rewrite map_length|]. intros c Hc. apply in_map_iff in Hc. destruct Hc as ([c' v] & <- & Hc). cbn.
  destruct (H4 c' v Hc) as (L & [[B1 B2]|(T & _)]).
  - split; [exact L|]. exists v. rewrite Hab, !in_app_iff. repeat split; auto. now apply (H6 c' v).
  - rewrite Ht in T by exact L. discriminate.
Qed.
Print Assumptions C23_runs_again_partial.
(** The end of a pipeline run clears the marks. *)
Theorem C23_reset_clears : forall n s s', some_step n s SLReset = Some s' -> forall c, s_tmo s' c = false.
Proof.
  intros n s s' E c. cbn [some_step] in E. destruct (s_main s); try discriminate;
  destruct (forallb _ (s_tasks s)); try discriminate; inversion E; reflexivity.
Qed.
Print Assumptions C23_reset_clears.
Definition all_of_two : list slabel :=
  [SLRun 2; SLMain; SLMain; SLMain; SLStart 0; SLEnd 0 st_default; SLCount 0; SLStart 1; SLEnd 1 st_default; SLCount 1; SLMain; SLMain; SLMain; SLMain].
Definition again_two : list slabel :=
  [SLRun 2; SLMain; SLMain; SLMain; SLStart 2; SLCount 2; SLStart 3; SLCount 3; SLMain; SLMain; SLMain; SLMain].
(** Executed again within the same pipeline run (second iteration of an enclosing loop), it returns OK although no child
    executed. *)
Theorem C23_again_in_loop_refuted : exists s1 s2, some_steps 2 some_init all_of_two = Some s1 /\ quiet s1 /\ s_main s1 = SDone st_default /\
  some_steps 2 s1 again_two = Some s2 /\ s_main s2 = SDone st_default /\
  exists re, s_evs s2 = s_evs s1 ++ re /\ forall c, ~ In (SEBody c) re.
Proof.
  eexists. eexists. split; [vm_compute; reflexivity|]. split.
  - split; [right; now eexists|]. cbn. intros t [<-|[<-|[]]]; reflexivity.
  - split; [reflexivity|]. split; [vm_compute; reflexivity|]. split; [reflexivity|].
    exists [SERun 2; SESkip 0; SECount 0 st_default; SESkip 1; SECount 1 st_default; SERet st_default]. split; [reflexivity|].
    intros c H. cbn in H. intuition discriminate.
Qed.
Print Assumptions C23_again_in_loop_refuted.
Example C23_case : match some_steps 2 some_init (all_of_two ++ [SLReset]) with
  | Some s0 => quiet s0 /\ (forall c, s_tmo s0 c = false) /\
      match some_steps 2 s0 [SLRun 1; SLMain; SLMain; SLMain; SLStart 2; SLEnd 2 st_default; SLCount 2; SLMain; SLMain; SLMain; SLMain] with
      | Some s => s_main s = SDone st_default | None => False end
  | None => False end.
Proof. vm_compute. split; [split; [right; now eexists|]|auto]. intros t [<-|[<-|[]]]; reflexivity. Qed.

(** * C55 *)
(** An execution that starts while a task of an earlier one is left: the left-over task is counted for the new execution,
    which returns OK before any of its own children did anything. *)
Theorem C55_leftover_counts_refuted : exists s1 s2, 
  some_steps 2 some_init [SLRun 1; SLMain; SLMain; SLMain; SLStart 0; SLEnd 0 st_default; SLCount 0; SLStart 1; SLMain; SLMain; SLMain; SLMain; SLEnd 1 st_default; SLReset] = Some s1 /\
  s_main s1 = SDone st_default /\
  some_steps 2 s1 [SLRun 1; SLMain; SLMain; SLMain; SLCount 1; SLMain; SLMain; SLMain; SLMain] = Some s2 /\ s_main s2 = SDone st_default /\
  exists re, s_evs s2 = s_evs s1 ++ re /\ (forall c, ~ In (SEBody c) re) /\ (forall c v, ~ In (SEEnd c v) re).
Proof.
  eexists. eexists. split; [vm_compute; reflexivity|]. split; [reflexivity|]. split; [vm_compute; reflexivity|]. split; [reflexivity|].
  exists [SERun 1; SECount 1 st_default; SERet st_default]. split; [reflexivity|]. split; intros; intro H; cbn in H; intuition discriminate.
Qed.
Print Assumptions C55_leftover_counts_refuted.
(** A child still queued when the group returned executes its body after the pipeline run has ended (SEReset). *)
Theorem C55_body_after_end_refuted : exists s,
  some_steps 2 some_init [SLRun 1; SLMain; SLMain; SLMain; SLStart 0; SLEnd 0 st_default; SLCount 0; SLMain; SLMain; SLMain; SLMain; SLReset; SLStart 1] = Some s /\
  s_evs s = [SERun 1; SEBody 0; SEEnd 0 st_default; SECount 0 st_default; SERet st_default; SEReset; SEBody 1].
Proof. eexists. split; [vm_compute; reflexivity|reflexivity]. Qed.
Print Assumptions C55_body_after_end_refuted.
(** With no task left over, nothing happens after the end until the next call: the only steps are resets and calls. *)
Theorem C55_quiet_partial : forall n s lb s', quiet s -> some_step n s lb = Some s' -> is_run lb = false ->
  lb = SLReset /\ quiet s' /\ s_evs s' = s_evs s ++ [SEReset].
Proof.
  intros n s lb s' [Hm Hq] E Hr. destruct lb as [w| | |i|i r|i|]; try discriminate; cbn [some_step] in E.
  - destruct Hm as [Hm|[r Hm]]; rewrite Hm in E; discriminate.
  - destruct Hm as [Hm|[r Hm]]; rewrite Hm in E; discriminate.
  - destruct (nth_error (s_tasks s) i) as [[c t]|] eqn:En; [|discriminate]. apply nth_error_In, Hq in En. destruct t; discriminate.
  - destruct (nth_error (s_tasks s) i) as [[c t]|] eqn:En; [|discriminate]. apply nth_error_In, Hq in En. destruct t; discriminate.
  - destruct (nth_error (s_tasks s) i) as [[c t]|] eqn:En.
    + apply nth_error_In, Hq in En. destruct t; try discriminate. destruct (s_main s); discriminate.
    + destruct (s_main s); discriminate.
  - split; [easy|]. destruct (forallb _ (s_tasks s)); [|destruct Hm as [Hm|[r Hm]]; rewrite Hm in E; discriminate].
    destruct Hm as [Hm|[r Hm]]; rewrite Hm in E; inversion E; subst s'; (split; [split; [cbn; eauto|exact Hq]|reflexivity]).
Qed.
Print Assumptions C55_quiet_partial.
Example C55_case : match some_steps 2 some_init all_of_two with Some s => quiet s | None => False end.
Proof. vm_compute. split; [right; now eexists|]. intros t [<-|[<-|[]]]; reflexivity. Qed.
