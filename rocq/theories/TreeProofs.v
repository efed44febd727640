(** Proofs for C116. *)
From Verif Require Import WholeModel GraphSpec WholeSpec WholeProofs TopoProofs EngineSeqProofs StaticProofs GraphProps DynProps FastProofs FastProps StatusProofs TreeSpec.
From Coq Require Import ZArith Lia Permutation Relations.
Local Open Scope nat_scope.
Local Open Scope list_scope.

(** * Counting starts and ends *)
Lemma ns_app e a b : n_starts e (a ++ b) = n_starts e a + n_starts e b.
Proof. unfold n_starts. now rewrite starts_app, count_occ_app. Qed.
Lemma ne_app e a b : n_ends e (a ++ b) = n_ends e a + n_ends e b.
Proof. unfold n_ends, finishes. now rewrite flat_map_app, map_app, count_occ_app. Qed.
Definition b2 (b : bool) : nat := if b then 1 else 0.
Lemma ns_start e x : n_starts e [GStart x] = b2 (Nat.eqb x e).
Proof. unfold n_starts. cbn [starts flat_map app count_occ]. destruct (Nat.eq_dec x e) as [->|N]; [now rewrite Nat.eqb_refl|]. apply Nat.eqb_neq in N. now rewrite N. Qed.
Lemma ns_fin e x r : n_starts e [GFinish x r] = 0. Proof. reflexivity. Qed.
Lemma ne_start e x : n_ends e [GStart x] = 0. Proof. reflexivity. Qed.
Lemma ne_fin e x r : n_ends e [GFinish x r] = b2 (Nat.eqb x e).
Proof. unfold n_ends. cbn [finishes flat_map app map fst count_occ]. destruct (Nat.eq_dec x e) as [->|N]; [now rewrite Nat.eqb_refl|]. apply Nat.eqb_neq in N. now rewrite N. Qed.
Lemma in_starts e tr : In e (starts tr) <-> In (GStart e) tr.
Proof. unfold starts. rewrite in_flat_map. split; [intros ([x|x r] & I & J); cbn in J; [destruct J as [->|[]]; exact I|contradiction]|intros I; exists (GStart e); split; [exact I|now left]]. Qed.
Lemma in_finishes e r tr : In (e, r) (finishes tr) <-> In (GFinish e r) tr.
Proof. unfold finishes. rewrite in_flat_map. split; [intros ([x|x v] & I & J); cbn in J; [contradiction|destruct J as [[= -> ->]|[]]; exact I]|intros I; exists (GFinish e r); split; [exact I|now left]]. Qed.
Lemma ns_zero e tr : n_starts e tr = 0 <-> ~ In (GStart e) tr.
Proof. unfold n_starts. rewrite <- count_occ_not_In, in_starts. reflexivity. Qed.
Lemma ne_pos e r tr : In (GFinish e r) tr -> 0 < n_ends e tr.
Proof. intros I. unfold n_ends. apply count_occ_In. apply in_map_iff. exists (e, r). split; [reflexivity|]. now apply in_finishes. Qed.
Lemma ne_two e v w tr : In (GFinish e v) tr -> In (GFinish e w) tr -> v <> w -> 1 < n_ends e tr.
Proof.
  intros I J N. apply in_split in I as (a & b & ->). change (a ++ GFinish e v :: b) with (a ++ [GFinish e v] ++ b). rewrite !ne_app, ne_fin, Nat.eqb_refl. cbn [b2].
  assert (In (GFinish e w) a \/ In (GFinish e w) b) as [K|K]; [|apply ne_pos in K; lia|apply ne_pos in K; lia]. apply in_app_or in J as [J|[J|J]]; auto. congruence.
Qed.

Lemma rev_case {A} (l : list A) : l = [] \/ exists q x, l = q ++ [x].
Proof. destruct (rev l) as [|x q] eqn:E; [left; rewrite <- (rev_involutive l), E; reflexivity|right]. exists (rev q), x. rewrite <- (rev_involutive l), E. reflexivity. Qed.

(** * Groups *)
Lemma pairs_app a b : pairs (a ++ b) = pairs a ++ pairs b. Proof. apply flat_map_app. Qed.
Lemma pairs_starts ps : starts (pairs ps) = map fst ps.
Proof. induction ps as [|[c r] ps IH]; [reflexivity|]. cbn. now f_equal. Qed.
Lemma pairs_fin ps : finishes (pairs ps) = ps.
Proof. induction ps as [|[c r] ps IH]; [reflexivity|]. cbn. now f_equal. Qed.
Lemma pairs_bal ps x : n_starts x (pairs ps) = n_ends x (pairs ps).
Proof. unfold n_starts, n_ends. now rewrite pairs_starts, pairs_fin. Qed.
Lemma pairs_good ps : all_good ps -> no_error (pairs ps).
Proof. intros G e r I. apply in_finishes in I. rewrite pairs_fin in I. exact (G _ I). Qed.
(** A start at position [t1] of a list of pairs: before it are pairs. *)
Lemma pairs_split ps : forall t1 c t2, pairs ps = t1 ++ GStart c :: t2 -> exists p1 r p2, ps = p1 ++ (c, r) :: p2 /\ t1 = pairs p1 /\ t2 = GFinish c r :: pairs p2.
Proof.
  induction ps as [|[x v] ps IH]; intros t1 c t2 E; [destruct t1; discriminate|]. cbn [pairs flat_map fst snd app] in E. fold (pairs ps) in E.
  destruct t1 as [|a [|b t1]]; cbn [app] in E.
  - injection E as -> <-. exists [], v, ps. auto.
  - discriminate.
  - injection E as <- <- E. destruct (IH _ _ _ E) as (p1 & r & p2 & -> & -> & ->). exists ((x, v) :: p1), r, p2. auto.
Qed.
Lemma proper_prefix g p q : proper_round g (p ++ q) -> proper_round g p.
Proof.
  intros (A & B & C). split; [|split].
  - unfold starts_once in *. rewrite starts_app in A. now apply NoDup_app_iff in A as (A & _).
  - intros x X. apply B. rewrite starts_app. apply in_or_app. now left.
  - intros t1 e t2 E d D. apply (C t1 e (t2 ++ q)); [|exact D]. now rewrite E, <- app_assoc.
Qed.
Lemma checked_shape r : (code r < 0)%Z -> (checked r = EReturn r \/ exists m, checked r = EThrow m /\ code r = STATUS_CRASH).
Proof. intros N. unfold checked, check_status. destruct (isErr r); [|now left]. destruct (isCrash r) eqn:C; [right; exists (info r); split; [reflexivity|]; unfold isCrash in C; now apply Z.eqb_eq in C|now left]. Qed.

(** All engines, before and after their return. *)
Lemma eng_at_proper g k tr o : wf g -> acyclic g -> eng_at g k tr o -> proper_round g tr /\
  (forall v, o = Some (EReturn v) -> (0 <= code v)%Z -> all_ran g tr /\ no_error tr) /\
  (forall v, o = Some (EReturn v) -> (code v < 0)%Z -> exists e, In (GFinish e v) tr) /\
  (forall m, o = Some (EThrow m) -> exists e v, In (GFinish e v) tr /\ code v = STATUS_CRASH).
Proof.
  intros W A H.
  assert (RET : forall r, engine_run g k tr r -> (forall m, r = EThrow m -> exists e v, In (GFinish e v) tr /\ code v = STATUS_CRASH) -> o = Some r ->
    proper_round g tr /\ (forall v, o = Some (EReturn v) -> (0 <= code v)%Z -> all_ran g tr /\ no_error tr) /\ (forall v, o = Some (EReturn v) -> (code v < 0)%Z -> exists e, In (GFinish e v) tr) /\
    (forall m, o = Some (EThrow m) -> exists e v, In (GFinish e v) tr /\ code v = STATUS_CRASH)).
  { intros r ER TH ->. destruct (engine_proper g k tr r W A ER) as (P & Q & R). split; [exact P|]. split; [|split].
    - intros v [= ->] V. destruct (Q v eq_refl V) as (_ & X & Y). now split.
    - intros v [= ->]. now apply R.
    - intros m [= ->]. now apply (TH m). }
  assert (NOT : proper_round g tr -> o = None -> proper_round g tr /\ (forall v, o = Some (EReturn v) -> (0 <= code v)%Z -> all_ran g tr /\ no_error tr) /\ (forall v, o = Some (EReturn v) -> (code v < 0)%Z -> exists e, In (GFinish e v) tr) /\
    (forall m, o = Some (EThrow m) -> exists e v, In (GFinish e v) tr /\ code v = STATUS_CRASH)) by (intros P ->; split; [exact P|]; split; [discriminate|split; discriminate]).
  destruct H as [res order tr r p q o T R E O|inl mat ls s T R|bind res prev tr st p q o D P R E O|bind c ls s D E1 E2 R|c ls s D E R].
  - pose proof (er_topo g res order tr r T R) as ER. destruct O as [O|[Q O]].
    + apply NOT; [|exact O]. destruct (engine_proper _ _ _ _ W A ER) as [PR _]. rewrite E in PR. now apply proper_prefix in PR.
    + subst q. rewrite app_nil_r in E. subst tr. refine (RET r ER _ O). intros m ->. destruct (topo_run_shape _ _ _ _ R) as [(_ & _ & X)|(a & f & b & _ & _ & N & -> & X)]; [discriminate|]. unfold check_result in X. destruct (code (res f) =? STATUS_CRASH)%Z eqn:C; [|discriminate].
      apply Z.eqb_eq in C. exists f, (res f). split; [|exact C]. unfold seq_trace. rewrite flat_map_app. apply in_or_app. right. cbn. auto.
  - destruct (s_out s) as [r|] eqn:O.
    + refine (RET r (er_static g inl mat ls s r T R O) _ eq_refl). intros m ->. destruct (C05_static_engine g inl W A) as (m' & M & _ & H). rewrite T in M. injection M as <-. destruct (H ls s R) as (_ & _ & _ & _ & _ & X). destruct (X m O) as (e & v & I & C & _). now exists e, v.
    + apply NOT; [|reflexivity]. destruct (C05_static_engine g inl W A) as (m & M & LY & H). rewrite T in M. injection M as <-. destruct (H ls s R) as (H1 & H2 & _). split; [exact H2|]. split; [exact (static_incl g inl mat ls s W LY R)|exact H1].
  - pose proof (er_serial g bind res prev tr st D P R) as ER. destruct O as [O|[Q O]].
    + apply NOT; [|exact O]. destruct (engine_proper _ _ _ _ W A ER) as [PR _]. rewrite E in PR. now apply proper_prefix in PR.
    + subst q. rewrite app_nil_r in E. subst tr. refine (RET _ ER _ O). discriminate.
  - destruct (p_out s) as [st|] eqn:O; cbn [option_map] in *.
    + refine (RET _ (er_parallel g bind c ls s st D E1 E2 R O) _ eq_refl). discriminate.
    + apply NOT; [|reflexivity]. destruct (C10_parallel_run g c ls s (conj W (conj E1 E2)) R) as (H1 & H2 & _). destruct (C10_parallel_only_independent g bind W D) as [_ ND].
      split; [exact H1|]. split; [exact H2|]. intros t1 e t2 T d X. destruct (ND d e). split; [|exact X]. apply H2. rewrite T. apply in_starts. apply in_or_app. right. now left.
  - subst g. destruct (d_out s) as [st|] eqn:O; cbn [option_map] in *.
    + refine (RET _ (er_common (c_g c) c ls s st D eq_refl R O) _ eq_refl). discriminate.
    + apply NOT; [|reflexivity]. destruct (C06_starts_after_deps c ls s W A R) as (H1 & H2 & H3). split; [exact H2|split; assumption].
Qed.
(** [eng_at] with a result is exactly [engine_run] of C102. *)
Lemma eng_at_run g k tr r : eng_at g k tr (Some r) <-> engine_run g k tr r.
Proof.
  split; intros H.
  - remember (Some r) as o eqn:Eo. destruct H as [res order tr r' p q o T R E O|inl mat ls s T R|bind res prev tr st p q o D P R E O|bind c ls s D E1 E2 R|c ls s D E R].
    + destruct O as [->|[-> ->]]; [discriminate|]. injection Eo as ->. rewrite app_nil_r in E. subst. now apply (er_topo g res order).
    + now apply (er_static g inl mat ls).
    + destruct O as [->|[-> ->]]; [discriminate|]. injection Eo as <-. rewrite app_nil_r in E. subst. now apply (er_serial g bind res prev).
    + destruct (p_out s) as [st|] eqn:O; [|discriminate]. injection Eo as <-. now apply (er_parallel g bind c ls).
    + destruct (d_out s) as [st|] eqn:O; [|discriminate]. injection Eo as <-. now apply (er_common g c ls).
  - destruct H as [res order tr r T R|inl mat ls s r T R O|bind res prev tr st D P R|bind c ls s st D E1 E2 R O|c ls s st D E R O].
    + apply (ea_topo g res order tr r tr []); auto. now rewrite app_nil_r.
    + rewrite <- O. now apply (ea_static g inl mat ls).
    + apply (ea_serial g bind res prev tr st tr []); auto. now rewrite app_nil_r.
    + change (Some (EReturn st)) with (option_map EReturn (Some st)). rewrite <- O. now apply (ea_parallel g bind c ls).
    + change (Some (EReturn st)) with (option_map EReturn (Some st)). rewrite <- O. now apply (ea_common g c ls).
Qed.

Section K.
Variable k : tkind.
Variable kids : list nat.
Hypothesis OK : kind_ok k kids.

(** A child that starts has not run in this execution, or every execution so far is over and went well. *)
Lemma at_start tr c o : group_at k (tr ++ [GStart c]) o -> In c kids /\ (~ In (GStart c) tr \/ (no_error tr /\ forall x, n_starts x tr = n_ends x tr)).
Proof.
  destruct k as [|may|may|g e]; cbn in *; intros H.
  - contradiction.
  - destruct H as (l & M & S). inversion S as [ps rest E G X|ps v E G V X|ps c' rest E G X|ps c' r rest o' E G N O X].
    + exfalso. destruct (rev_case ps) as [->|(q & [a b] & ->)]; [now destruct tr|]. rewrite pairs_app in X. cbn in X. change ([GStart a; GFinish a b]) with ([GStart a] ++ [GFinish a b]) in X. rewrite app_assoc in X. apply app_inj_tail in X as [_ X]. discriminate.
    + exfalso. destruct (rev_case ps) as [->|(q & [a b] & ->)]; [now destruct tr|]. rewrite pairs_app in X. cbn in X. change ([GStart a; GFinish a b]) with ([GStart a] ++ [GFinish a b]) in X. rewrite app_assoc in X. apply app_inj_tail in X as [_ X]. discriminate.
    + apply app_inj_tail in X as [<- [= <-]]. split; [apply (OK l M); rewrite E; apply in_or_app; right; now left|]. right. split; [now apply pairs_good|intros; apply pairs_bal].
    + exfalso. change ([GStart c'; GFinish c' r]) with ([GStart c'] ++ [GFinish c' r]) in X. rewrite app_assoc in X. apply app_inj_tail in X as [_ X]. discriminate.
  - destruct H as (l & M & S). destruct (OK l M) as [I N]. assert (P : NoDup (starts (tr ++ [GStart c])) /\ incl (starts (tr ++ [GStart c])) l).
    { destruct S as [S1 S2|res S1 S2]; [now split|]. split; [apply (Permutation_NoDup (Permutation_sym S1) N)|]. intros x X. now apply (Permutation_in _ S1). }
    destruct P as [P1 P2]. rewrite starts_app in P1, P2. split; [apply I, P2; apply in_or_app; right; now left|]. left. intros X. apply in_starts in X. change (starts [GStart c]) with [c] in P1. apply NoDup_app_iff in P1 as (_ & _ & P1). apply (P1 c X). now left.
  - destruct OK as (W & A & <-). destruct (eng_at_proper _ _ _ _ W A H) as ((P1 & P2 & _) & _). unfold starts_once in P1. rewrite starts_app in P1, P2. split; [apply P2; apply in_or_app; right; now left|]. left. intros X. apply in_starts in X. change (starts [GStart c]) with [c] in P1. apply NoDup_app_iff in P1 as (_ & _ & P1). apply (P1 c X). now left.
Qed.
(** A group that returns well has done all it had to, and well. *)
Lemma at_good tr v : group_at k tr (Some (EReturn v)) -> (0 <= code v)%Z -> no_error tr /\ (forall x, n_starts x tr = n_ends x tr) /\ complete k tr.
Proof.
  destruct k as [|may|may|g e]; cbn in *; intros H V.
  - contradiction.
  - destruct H as (l & M & S). inversion S as [|ps v' E G V' X Y| |ps c' r rest o' E G N O X Y].
    + split; [now apply pairs_good|]. split; [intros; apply pairs_bal|]. exists ps. split; [now rewrite <- E|reflexivity].
    + exfalso. destruct O as [O|[O|O]]; [congruence| |].
      * assert (v = r) by congruence. subst. lia.
      * destruct (checked_shape r N) as [C|(m & C & _)]; [|congruence]. assert (v = r) by congruence. subst. lia.
  - destruct H as (l & M & S). inversion S as [|res S1 S2 Y]. subst v. assert (B : forall c, In c l -> (0 <= code (res c))%Z).
    { intros c C. destruct (Z.ltb_spec (code (res c)) 0) as [L|L]; [|exact L]. exfalso. assert (Q : isErr (st_sum st_default (map res l)) = true). { rewrite st_sum_isErr. apply orb_true_iff. right. apply existsb_exists. exists (res c). split; [now apply in_map|]. now apply isErr_code. } apply isErr_code in Q. lia. }
    split; [|split].
    + intros x r X. apply in_finishes in X. apply (Permutation_in _ S2) in X. apply in_map_iff in X as (c & [= -> <-] & C). now apply B.
    + intros x. unfold n_starts, n_ends. apply (Permutation_count_occ Nat.eq_dec). rewrite S1. symmetry. rewrite S2, map_map. cbn. now rewrite map_id.
    + exists l. split; [exact M|]. split; [exact S1|]. rewrite S2, map_map. cbn. now rewrite map_id.
  - destruct OK as (W & A & _). destruct (eng_at_proper _ _ _ _ W A H) as (_ & P & _). destruct (P v eq_refl V) as [P1 P2]. split; [exact P2|]. split; [|exact P1]. intros x. destruct P1 as [Q1 Q2]. unfold n_starts, n_ends. apply (Permutation_count_occ Nat.eq_dec). now rewrite Q1, Q2.
Qed.
(** An error that a group returns is one of a child. *)
Lemma at_bad tr res r : group_at k tr (Some res) -> reports res r -> (code r < 0)%Z -> exists c v, In (GFinish c v) tr /\ code v = code r.
Proof.
  intros H R N. destruct k as [|may|may|g e]; cbn in H, OK.
  - contradiction.
  - destruct H as (l & M & S). inversion S as [|ps v' E G V' X Y| |ps c' w rest o' E G Nw O X Y].
    + subst res. cbn in R. subst r. lia.
    + exists c', w. split; [apply in_or_app; right; cbn; auto|]. destruct O as [O|[O|O]]; [congruence| |].
      * assert (Z1 : res = EReturn w) by congruence. rewrite Z1 in R. cbn in R. now subst.
      * assert (Z1 : res = checked w) by congruence. rewrite Z1 in R. destruct (checked_shape w Nw) as [C|(m & C & K)]; rewrite C in R; cbn in R; congruence.
  - destruct H as (l & M & S). inversion S as [|rs S1 S2 Y]. subst res. cbn in R. subst r. rewrite (st_sum_spec _ st_default eq_refl) in *. destruct (find isErr (map rs l)) as [w|] eqn:F; [|now vm_compute in N]. apply find_some in F as [F _]. apply in_map_iff in F as (c & <- & C).
    exists c, (rs c). split; [|reflexivity]. apply in_finishes. apply (Permutation_in _ (Permutation_sym S2)). apply in_map_iff. now exists c.
  - destruct OK as (W & A & _). destruct (eng_at_proper _ _ _ _ W A H) as (_ & _ & P & Q). destruct res as [v|m]; cbn in R.
    + subst r. destruct (P v eq_refl N) as (c & I). now exists c, v.
    + destruct (Q m eq_refl) as (c & v & I & C). exists c, v. split; [exact I|congruence].
Qed.
(** Order among the children of one group. *)
Definition ordered (a b : nat) : Prop := match k with TEng g _ => path g a b | TSeq may => forall l l1 l2, may l -> l = l1 ++ b :: l2 -> In a l1 /\ ~ In a l2 /\ a <> b | _ => False end.
Definition balanced (tr : list gevent) : Prop := forall p q d, tr = p ++ q -> n_ends d p <= n_starts d p.
Lemma path_edge g a b : path g a b -> exists d, In d (dep g b) /\ (a = d \/ path g a d).
Proof. intros P. apply clos_trans_tn1 in P. destruct P as [b [_ D]|m b [_ D] P]; [exists a; auto|]. exists m. split; [exact D|]. right. now apply clos_tn1_trans. Qed.
Lemma at_order tr o a b t1 t2 : group_at k tr o -> ordered a b -> balanced tr -> tr = t1 ++ GStart b :: t2 ->
  (exists v, In (GFinish a v) t1 /\ (0 <= code v)%Z) /\ n_starts a tr = n_ends a tr /\ forall v, In (GFinish a v) tr -> (0 <= code v)%Z.
Proof.
  intros H O B E. unfold ordered in O. destruct k as [|may|may|g e]; cbn in H, O, OK; try contradiction.
  - destruct H as (l & M & S).
    assert (Q : exists ps rest last, l = map fst ps ++ rest /\ all_good ps /\ tr = pairs ps ++ last /\ (last = [] \/ (exists c rest', rest = c :: rest' /\ (last = [GStart c] \/ exists r, last = [GStart c; GFinish c r])))).
    { destruct S as [ps rest S1 S2|ps v S1 S2 S3|ps c rest S1 S2|ps c r rest o S1 S2 S3].
      - exists ps, rest, []. rewrite app_nil_r. repeat split; auto.
      - exists ps, [], []. rewrite !app_nil_r. repeat split; auto.
      - exists ps, (c :: rest), [GStart c]. repeat split; auto. right. exists c, rest. auto.
      - exists ps, (c :: rest), [GStart c; GFinish c r]. repeat split; auto. right. exists c, rest. split; [reflexivity|]. right. now exists r. }
    destruct Q as (ps & rest & last & El & G & Et & L). clear S.
    (* where [b] starts: after the pairs [p1]; all of [a] is in them *)
    assert (Q : exists p1 p2 t, ps = p1 ++ p2 /\ t1 = pairs p1 /\ In a (map fst p1) /\ (forall v, In (GFinish a v) tr -> In (GFinish a v) t1) /\ n_starts a tr = n_starts a (pairs p1) /\ n_ends a tr = n_ends a (pairs p1) /\ t = t2).
    { assert (C : (exists p1 r p2, ps = p1 ++ (b, r) :: p2 /\ t1 = pairs p1) \/ (t1 = pairs ps /\ exists rest', rest = b :: rest' /\ (last = [GStart b] \/ exists r, last = [GStart b; GFinish b r]))).
      { rewrite Et in E. destruct L as [->|(c & rest' & -> & L)].
        - left. rewrite app_nil_r in E. destruct (pairs_split _ _ _ _ E) as (p1 & r & p2 & -> & -> & _). now exists p1, r, p2.
        - assert (D : pairs ps ++ last = t1 ++ GStart b :: t2) by exact E. assert (K : (exists t3, pairs ps = t1 ++ GStart b :: t3) \/ (t1 = pairs ps /\ c = b)).
          { clear - D L. assert (Len : length t1 < length (pairs ps) \/ length (pairs ps) <= length t1) by lia. destruct Len as [Len|Len].
            - left. assert (F : firstn (length (pairs ps)) (pairs ps ++ last) = firstn (length (pairs ps)) (t1 ++ GStart b :: t2)) by now rewrite D. rewrite firstn_app, firstn_all, Nat.sub_diag, firstn_O, app_nil_r in F. rewrite F.
              rewrite firstn_app, firstn_all2 by lia. destruct (length (pairs ps) - length t1) as [|n] eqn:En; [lia|]. cbn [firstn]. now eexists.
            - right. assert (F : skipn (length (pairs ps)) (pairs ps ++ last) = skipn (length (pairs ps)) (t1 ++ GStart b :: t2)) by now rewrite D. rewrite skipn_app, skipn_all, Nat.sub_diag, skipn_O in F. cbn [app] in F. rewrite skipn_app in F. replace (length (pairs ps) - length t1) with 0 in F by lia. rewrite skipn_O in F.
              assert (F1 : firstn (length (pairs ps)) (pairs ps ++ last) = firstn (length (pairs ps)) (t1 ++ GStart b :: t2)) by now rewrite D. rewrite firstn_app, firstn_all, Nat.sub_diag, firstn_O, app_nil_r, firstn_app in F1. replace (length (pairs ps) - length t1) with 0 in F1 by lia. rewrite firstn_O, app_nil_r in F1.
              assert (Z : t1 = pairs ps ++ skipn (length (pairs ps)) t1) by (rewrite F1 at 1; symmetry; apply firstn_skipn). destruct (skipn (length (pairs ps)) t1) as [|y z] eqn:Y.
              + rewrite app_nil_r in Z. split; [exact Z|]. cbn in F. destruct L as [->|(r & ->)]; injection F; auto.
              + exfalso. destruct L as [->|(r & ->)]; cbn in F; injection F as F2 F3; destruct z as [|z1 z2]; cbn in F3; try discriminate; injection F3 as F3 F4; try discriminate. destruct z2; discriminate. }
          destruct K as [(t3 & K)|[-> ->]].
          + left. destruct (pairs_split _ _ _ _ K) as (p1 & r & p2 & -> & -> & _). now exists p1, r, p2.
          + right. split; [reflexivity|]. now exists rest'. }
      destruct C as [(p1 & r & p2 & -> & ->)|(-> & rest' & -> & L')].
      - rewrite map_app in El. cbn [map fst] in El. rewrite <- app_assoc in El. cbn [app] in El. destruct (O l _ _ M El) as (O1 & O2 & O3). exists p1, ((b, r) :: p2), t2. split; [reflexivity|]. split; [reflexivity|]. split; [exact O1|].
        assert (NA : ~ In a (map fst ((b, r) :: p2))) by (cbn; intros [X|X]; [now apply O3|apply O2; apply in_or_app; now left]).
        assert (NL : n_starts a last = 0 /\ n_ends a last = 0).
        { destruct L as [->|(c & rest' & -> & L)]; [now split|]. assert (c <> a) by (intros ->; apply O2; apply in_or_app; right; now left). apply Nat.eqb_neq in H. destruct L as [->|(w & ->)]; [rewrite ns_start, ne_start, H; now split|]. change [GStart c; GFinish c w] with ([GStart c] ++ [GFinish c w]). rewrite ns_app, ne_app, ns_start, ne_start, ns_fin, ne_fin, H. now split. }
        assert (NP : n_starts a (pairs ((b, r) :: p2)) = 0 /\ n_ends a (pairs ((b, r) :: p2)) = 0).
        { rewrite <- pairs_bal. unfold n_starts. rewrite pairs_starts. apply (count_occ_not_In Nat.eq_dec) in NA. now split. }
        rewrite Et, pairs_app, <- app_assoc, !ns_app, !ne_app. split; [|split; [lia|split; [lia|reflexivity]]]. intros v I. apply in_app_or in I as [I|I]; [exact I|exfalso]. apply ne_pos in I. rewrite ne_app in I. lia.
      - destruct (O l _ _ M El) as (O1 & O2 & O3). exists ps, [], t2. rewrite app_nil_r. split; [reflexivity|]. split; [reflexivity|]. split; [exact O1|].
        assert (NL : n_starts a last = 0 /\ n_ends a last = 0).
        { assert (Hb : b <> a) by congruence. apply Nat.eqb_neq in Hb. destruct L' as [->|(w & ->)]; [rewrite ns_start, ne_start, Hb; now split|]. change [GStart b; GFinish b w] with ([GStart b] ++ [GFinish b w]). rewrite ns_app, ne_app, ns_start, ne_start, ns_fin, ne_fin, Hb. now split. }
        rewrite Et, !ns_app, !ne_app. split; [|split; [lia|split; [lia|reflexivity]]]. intros v I. apply in_app_or in I as [I|I]; [exact I|exfalso]. apply ne_pos in I. lia. }
    destruct Q as (p1 & p2 & _ & -> & -> & Q1 & Q2 & Q3 & Q4 & _). assert (G1 : no_error (pairs p1)) by (apply pairs_good; intros x X; apply G; apply in_or_app; now left). split; [|split].
    + apply in_map_iff in Q1 as ((a' & v) & <- & Q1). exists v. cbn [fst]. split; [apply in_finishes; now rewrite pairs_fin|]. exact (G (a', v) (in_or_app _ _ _ (or_introl Q1))).
    + rewrite Q3, Q4. apply pairs_bal.
    + intros v I. apply (G1 a). now apply Q2.
  - destruct OK as (W & A & _). destruct (eng_at_proper _ _ _ _ W A H) as ((P1 & P2 & P3) & _).
    assert (FIN : forall b, path g a b -> forall t1 t2, tr = t1 ++ GStart b :: t2 -> exists v, In (GFinish a v) t1 /\ (0 <= code v)%Z).
    { clear b O t1 t2 E. intros b P. apply clos_trans_tn1 in P. induction P as [b [_ D]|m b [_ D] _ IH]; intros t1 t2 E; [exact (P3 t1 b t2 E a D)|]. destruct (P3 t1 b t2 E m D) as (v & I & _). apply ne_pos in I. pose proof (B t1 (GStart b :: t2) m E) as X. assert (S : In (GStart m) t1). { destruct (n_starts m t1) eqn:Z; [lia|]. apply in_starts. apply (count_occ_In Nat.eq_dec). unfold n_starts in Z. lia. }
      apply in_split in S as (u1 & u2 & ->). destruct (IH u1 (u2 ++ GStart b :: t2)) as (w & J & K); [now rewrite E, <- app_assoc|]. exists w. split; [apply in_or_app; now left|exact K]. }
    destruct (FIN b O t1 t2 E) as (v & I & V). split; [now exists v|]. assert (IT : In (GFinish a v) tr) by (rewrite E; apply in_or_app; now left). assert (S1 : n_starts a tr <= 1). { unfold n_starts. apply (NoDup_count_occ Nat.eq_dec). exact P1. } pose proof (B tr [] a ltac:(now rewrite app_nil_r)) as X. pose proof (ne_pos _ _ _ IT) as Y. split; [lia|].
    intros w J. destruct (Z.ltb_spec (code w) 0) as [L|L]; [|exact L]. assert (NE : v <> w) by (intros ->; lia). pose proof (ne_two _ _ _ _ IT J NE). lia.
Qed.
End K.

(** * The tree *)
Section T.
Variable T : tree.
Hypothesis TO : tree_ok T.
Notation kids := (t_kids T).
Notation root := (t_root T).

Lemma in_top a x : inside T a x -> a = x \/ exists c, In c (kids a) /\ inside T c x.
Proof. induction 1 as [|p x H IH K]; [now left|]. right. destruct IH as [->|(c & C & I)]; [exists x; split; [exact K|constructor]|]. exists c. split; [exact C|]. now apply (in_kid T c p). Qed.
Lemma in_trans a b x : inside T a b -> inside T b x -> inside T a x.
Proof. intros A B. induction B as [|p x _ IH K]; [exact A|]. now apply (in_kid T a p). Qed.
Lemma in_one p c : In c (kids p) -> inside T p c.
Proof. intros C. apply (in_kid T p p); [constructor|exact C]. Qed.
Lemma kid_par p c : In c (kids p) -> t_par T c = p /\ c <> root.
Proof. apply (to_kid T TO). Qed.
Lemma in_par c e : inside T c e -> e <> c -> inside T c (t_par T e) /\ In e (kids (t_par T e)).
Proof. intros H N. inversion H as [|p x I K]; subst; [contradiction|]. destruct (kid_par p e K) as [-> _]. now split. Qed.
Lemma kid_deep p c : In c (kids p) -> ~ inside T c p.
Proof.
  intros C I. destruct (to_deep T TO) as [depth D]. assert (L : forall a x, inside T a x -> depth a <= depth x). { induction 1 as [|q x _ IH K]; [lia|]. apply D in K. lia. } specialize (L _ _ I). apply D in C. lia.
Qed.
Lemma kid_neq p c : In c (kids p) -> c <> p.
Proof. intros C ->. apply (kid_deep p p C). constructor. Qed.
Lemma in_root c : inside T c root -> c = root.
Proof. intros H. inversion H as [|p x I K]; [reflexivity|]. apply kid_par in K. now destruct K. Qed.

Definition calm (s : tst) (e : nat) : Prop := forall d, inside T e d -> s_busy s d = 0 /\ (t_kind T d <> TNode -> s_on s d = true -> exists v, s_res s d = Some (EReturn v) /\ (0 <= code v)%Z).
Lemma calm_in s e d : calm s e -> inside T e d -> calm s d.
Proof. intros H I x X. apply H. now apply (in_trans e d). Qed.
Lemma calm_ext s s' e : (forall d, inside T e d -> s_busy s' d = s_busy s d /\ s_on s' d = s_on s d /\ s_res s' d = s_res s d) -> calm s e -> calm s' e.
Proof. intros E H d D. destruct (E d D) as (-> & -> & ->). now apply H. Qed.

Record tinv (s : tst) : Prop := {
  i_kid : forall p c, In c (kids p) -> n_starts c (s_did s p) = n_ends c (s_did s p) + s_busy s c /\ s_busy s c <= 1;
  i_root : s_busy s root <= 1;
  i_off : forall p, s_on s p = false -> s_did s p = [] /\ s_res s p = None /\ s_busy s p = 0;
  i_at : forall p, (s_did s p = [] /\ s_res s p = None) \/ group_at (t_kind T p) (s_did s p) (s_res s p);
  i_bal : forall p, balanced (s_did s p);
  i_ev : forall p x, In x (s_did s p) -> In (elem_of x) (kids p);
  i_in : forall e, 0 < s_busy s e -> e = root \/ In e (kids (t_par T e));
  i_calm : forall p c, In c (kids p) -> s_busy s c = 0 -> calm s c \/ exists v, (code v < 0)%Z /\ In (GFinish c v) (s_did s p);
  i_rootb : s_busy s root = 0 -> calm s root \/ exists v, (code v < 0)%Z /\ In (GFinish root v) (s_log s);
  i_log : forall e, n_starts e (s_log s) = n_ends e (s_log s) + s_busy s e;
  i_since : forall p, s_on s p = true -> exists q, since p (s_log s) q /\ s_did s p = of_kids T p q
}.
Lemma tinv_new : tinv t_new.
Proof.
  split; cbn; intros; try lia; try discriminate; auto.
  - intros p' q d E. symmetry in E. apply app_eq_nil in E as [-> ->]. reflexivity.
  - left. intros d _. split; [reflexivity|]. discriminate.
  - left. intros d _. split; [reflexivity|]. discriminate.
Qed.

(** A group whose run() returned well: nothing in it is going on. *)
Definition kids_calm (s : tst) (e : nat) : Prop := forall c, In c (kids e) -> s_busy s c = 0 /\ calm s c.
Lemma good_calm s p v : tinv s -> s_res s p = Some (EReturn v) -> (0 <= code v)%Z -> kids_calm s p /\ no_error (s_did s p) /\ complete (t_kind T p) (s_did s p).
Proof.
  intros I R V. destruct (i_at s I p) as [[_ X]|G]; [congruence|]. rewrite R in G. destruct (at_good _ _ (to_kind T TO p) _ _ G V) as (N & B & C). split; [|now split]. intros c K. destruct (i_kid s I p c K) as [E _]. specialize (B c). assert (Z : s_busy s c = 0) by lia. split; [exact Z|].
  destruct (i_calm s I p c K Z) as [X|(w & W & X)]; [exact X|]. apply N in X. lia.
Qed.
Lemma off_calm s p : tinv s -> s_on s p = false -> kids_calm s p.
Proof.
  intros I F. destruct (i_off s I p F) as (D & _ & _). intros c K. destruct (i_kid s I p c K) as [E _]. rewrite D in E. cbn in E. assert (Z : s_busy s c = 0) by lia. split; [exact Z|]. destruct (i_calm s I p c K Z) as [X|(w & _ & X)]; [exact X|]. rewrite D in X. contradiction.
Qed.
(** A child that is about to start, and what is in it, is at rest; the groups it is in are not. *)
Lemma start_calm s e : tinv s -> s_on s (t_par T e) = true -> group_at (t_kind T (t_par T e)) (s_did s (t_par T e) ++ [GStart e]) (s_res s (t_par T e)) ->
  In e (kids (t_par T e)) /\ s_busy s e = 0 /\ calm s e /\ forall c, calm s c -> inside T c e -> c = e.
Proof.
  intros I O G. set (p := t_par T e) in *. destruct (at_start _ _ (to_kind T TO p) _ _ _ G) as [K H]. split; [exact K|]. destruct (i_kid s I p e K) as [E L].
  assert (Z : s_busy s e = 0 /\ forall v, In (GFinish e v) (s_did s p) -> (0 <= code v)%Z).
  { destruct H as [H|[N B]].
    - apply ns_zero in H. split; [lia|]. intros v X. apply ne_pos in X. lia.
    - specialize (B e). split; [lia|]. intros v. apply N. }
  destruct Z as [Z W]. split; [exact Z|]. split.
  - destruct (i_calm s I p e K Z) as [X|(v & V & X)]; [exact X|]. apply W in X. lia.
  - intros c C J. destruct (Nat.eq_dec e c) as [->|NE]; [reflexivity|exfalso]. destruct (in_par c e J NE) as [J' _]. fold p in J'. destruct (C p J') as [_ R]. destruct R as (v & R & V); [intros Q; rewrite Q in G; exact G|exact O|].
    rewrite R in G. destruct (at_good _ _ (to_kind T TO p) _ _ G V) as (_ & B & _). specialize (B e). rewrite ns_app, ne_app, ns_start, ne_start, Nat.eqb_refl in B. cbn [b2] in B. lia.
Qed.

Lemma balanced_snoc tr x : balanced tr -> n_ends (elem_of x) (tr ++ [x]) <= n_starts (elem_of x) (tr ++ [x]) -> balanced (tr ++ [x]).
Proof.
  intros B H p q d E. destruct (rev_case q) as [->|(q' & y & ->)].
  - rewrite app_nil_r in E. subst p. destruct (Nat.eq_dec (elem_of x) d) as [<-|N]; [exact H|]. pose proof (B tr [] d ltac:(now rewrite app_nil_r)) as X. rewrite ns_app, ne_app. destruct x as [y|y r]; cbn [elem_of] in N; apply Nat.eqb_neq in N; [rewrite ns_start, ne_start, N|rewrite ns_fin, ne_fin, N]; cbn [b2]; lia.
  - rewrite app_assoc in E. apply app_inj_tail in E as [-> _]. now apply (B p q' d).
Qed.
Lemma since_snoc e lg q x : x <> GStart e -> since e lg q -> since e (lg ++ [x]) (q ++ [x]).
Proof. intros N (p & -> & F). exists p. rewrite <- app_assoc. split; [reflexivity|]. intros I. apply in_app_or in I as [I|[I|[]]]; auto. Qed.
Lemma of_kids_snoc p q x : of_kids T p (q ++ [x]) = of_kids T p q ++ (if memb (elem_of x) (kids p) then [x] else []).
Proof. unfold of_kids. rewrite filter_app. cbn [filter]. destruct (memb (elem_of x) (kids p)); reflexivity. Qed.
Lemma memb_kid p e q : In e (kids p) -> memb e (kids q) = Nat.eqb q p.
Proof.
  intros K. destruct (Nat.eqb_spec q p) as [->|N]; [now apply memb_in|]. destruct (memb e (kids q)) eqn:M; [|reflexivity]. apply memb_in in M. destruct (kid_par _ _ K), (kid_par _ _ M). congruence.
Qed.
Lemma memb_root q : memb root (kids q) = false.
Proof. destruct (memb root (kids q)) eqn:M; [|reflexivity]. apply memb_in in M. now destruct (kid_par _ _ M). Qed.

Lemma inv_run s : tinv s -> s_on s root = false \/ (s_busy s root = 0 /\ exists v, s_res s root = Some (EReturn v) /\ (0 <= code v)%Z) -> tinv (begins root s).
Proof.
  intros I H. assert (K : kids_calm s root /\ s_busy s root = 0).
  { destruct H as [H|[Z (v & R & V)]]; [split; [now apply off_calm|now apply (i_off s I)]|]. split; [now apply (good_calm s root v)|exact Z]. }
  destruct K as [K Z]. assert (CE : forall c, c <> root -> calm s c -> calm (begins root s) c).
  { intros c N. apply calm_ext. intros d D. assert (d <> root) by (intros ->; apply N; now apply in_root). cbn. rewrite !upd_other by auto. auto. }
  split; cbn [begins s_on s_did s_res s_busy s_log].
  - intros p c C. destruct (kid_par p c C) as [_ N]. rewrite (upd_other _ root _ c) by auto. destruct (Nat.eq_dec p root) as [->|Np]; [rewrite upd_same|rewrite upd_other by auto; now apply (i_kid s I)]. destruct (K c C) as [-> _]. cbn. lia.
  - rewrite upd_same. lia.
  - intros p. destruct (Nat.eq_dec p root) as [->|Np]; [rewrite upd_same; discriminate|rewrite !upd_other by auto; apply (i_off s I)].
  - intros p. destruct (Nat.eq_dec p root) as [->|Np]; [rewrite !upd_same; now left|rewrite !upd_other by auto; apply (i_at s I)].
  - intros p. destruct (Nat.eq_dec p root) as [->|Np]; [rewrite upd_same|rewrite upd_other by auto; apply (i_bal s I)]. intros a b d E. symmetry in E. apply app_eq_nil in E as [-> ->]. reflexivity.
  - intros p x. destruct (Nat.eq_dec p root) as [->|Np]; [rewrite upd_same; contradiction|rewrite upd_other by auto; apply (i_ev s I)].
  - intros e. destruct (Nat.eq_dec e root) as [->|Ne]; [now left|rewrite upd_other by auto; apply (i_in s I)].
  - intros p c C. destruct (kid_par p c C) as [_ N]. rewrite (upd_other _ root _ c) by auto. intros B. destruct (Nat.eq_dec p root) as [->|Np].
    + left. apply CE; [exact N|]. now apply K.
    + rewrite upd_other by auto. destruct (i_calm s I p c C B) as [X|X]; [left; now apply CE|now right].
  - rewrite upd_same. discriminate.
  - intros e. rewrite ns_app, ne_app, ns_start, ne_start. pose proof (i_log s I e). destruct (Nat.eqb_spec root e) as [<-|N]; cbn [b2]; [rewrite upd_same|rewrite upd_other by auto]; lia.
  - intros p. destruct (Nat.eq_dec p root) as [->|Np].
    + intros _. rewrite upd_same. exists []. split; [|reflexivity]. exists (s_log s). split; [reflexivity|intros []].
    + rewrite !upd_other by auto. intros O. destruct (i_since s I p O) as (q & S & E). exists (q ++ [GStart root]). split; [apply since_snoc; [congruence|exact S]|]. rewrite of_kids_snoc. cbn [elem_of]. rewrite memb_root, app_nil_r. exact E.
Qed.

Lemma inv_start s e : tinv s -> e <> root -> s_on s (t_par T e) = true -> group_at (t_kind T (t_par T e)) (s_did s (t_par T e) ++ [GStart e]) (s_res s (t_par T e)) -> tinv (notes (t_par T e) (GStart e) (begins e s)).
Proof.
  intros I NR O G. destruct (start_calm s e I O G) as (K & Z & C & U). set (p := t_par T e) in *. assert (NP : p <> e) by (intros X; apply (kid_neq p e K); now symmetry).
  assert (DID : forall q, s_did (notes p (GStart e) (begins e s)) q = if Nat.eqb q p then s_did s p ++ [GStart e] else if Nat.eqb q e then [] else s_did s q).
  { intros q. cbn. destruct (Nat.eqb_spec q p) as [->|N1]; [rewrite upd_same, upd_other by auto; reflexivity|]. rewrite upd_other by auto. destruct (Nat.eqb_spec q e) as [->|N2]; [now rewrite upd_same|now rewrite upd_other by auto]. }
  assert (CE : forall c, ~ inside T c e -> calm s c -> calm (notes p (GStart e) (begins e s)) c).
  { intros c N. apply calm_ext. intros d D. assert (d <> e) by (intros ->; contradiction). cbn. rewrite !upd_other by auto. auto. }
  destruct (i_kid s I p e K) as [EE _].
  split; cbn [notes begins s_on s_res s_busy s_log]; intros.
  - rewrite DID. destruct (Nat.eqb_spec p0 p) as [->|N1].
    + rewrite ns_app, ne_app, ns_start, ne_start. destruct (Nat.eqb_spec e c) as [<-|N2]; cbn [b2]; [rewrite upd_same; lia|]. rewrite upd_other by auto. pose proof (i_kid s I p c H). lia.
    + assert (c <> e) by (intros ->; apply N1; destruct (kid_par _ _ H), (kid_par _ _ K); congruence). rewrite upd_other by auto. destruct (Nat.eqb_spec p0 e) as [->|N2]; [|now apply (i_kid s I)].
      destruct (C c (in_one _ _ H)) as [-> _]. cbn. lia.
  - rewrite upd_other by auto. apply (i_root s I).
  - destruct (Nat.eq_dec p0 e) as [->|N]; [rewrite upd_same in H; discriminate|]. rewrite !upd_other in * by auto. rewrite DID. destruct (Nat.eqb_spec p0 p) as [->|N1]; [congruence|]. apply Nat.eqb_neq in N. rewrite N. now apply (i_off s I).
  - rewrite DID. destruct (Nat.eqb_spec p0 p) as [->|N1]; [right; rewrite upd_other by auto; exact G|]. destruct (Nat.eqb_spec p0 e) as [->|N2]; [rewrite upd_same; now left|]. rewrite upd_other by auto. apply (i_at s I).
  - rewrite DID. destruct (Nat.eqb_spec p0 p) as [->|N1].
    + apply balanced_snoc; [apply (i_bal s I)|]. cbn [elem_of]. rewrite ns_app, ne_app, ns_start, ne_start. lia.
    + destruct (Nat.eqb_spec p0 e) as [->|N2]; [|apply (i_bal s I)]. intros a b d E. symmetry in E. apply app_eq_nil in E as [-> ->]. reflexivity.
  - rewrite DID in H. destruct (Nat.eqb_spec p0 p) as [->|N1]; [apply in_app_or in H as [H|[<-|[]]]; [now apply (i_ev s I)|exact K]|]. destruct (Nat.eqb_spec p0 e) as [->|N2]; [contradiction|now apply (i_ev s I)].
  - destruct (Nat.eq_dec e0 e) as [->|N]; [now right|]. rewrite upd_other in H by auto. now apply (i_in s I).
  - rewrite DID. destruct (Nat.eq_dec c e) as [->|N]; [rewrite upd_same in H0; discriminate|]. rewrite upd_other in H0 by auto. destruct (Nat.eqb_spec p0 p) as [->|N1].
    + destruct (i_calm s I p c H H0) as [X|(v & V & X)]; [left|right; exists v; split; [exact V|apply in_or_app; now left]]. apply CE; [|exact X]. intros J. apply N. now apply (U c X).
    + destruct (Nat.eqb_spec p0 e) as [->|N2].
      * left. apply CE; [now apply kid_deep|]. now apply (calm_in s e); [|apply in_one].
      * destruct (i_calm s I p0 c H H0) as [X|X]; [left|now right]. apply CE; [|exact X]. intros J. apply N. now apply (U c X).
  - rewrite upd_other in H by auto. destruct (i_rootb s I H) as [X|(v & V & X)]; [left|right; exists v; split; [exact V|apply in_or_app; now left]]. apply CE; [|exact X]. intros J. apply NR. symmetry. now apply (U root X).
  - rewrite ns_app, ne_app, ns_start, ne_start. pose proof (i_log s I e0). destruct (Nat.eqb_spec e e0) as [<-|N]; cbn [b2]; [rewrite upd_same|rewrite upd_other by auto]; lia.
  - destruct (Nat.eq_dec p0 e) as [->|N].
    + rewrite DID. destruct (Nat.eqb_spec e p) as [X|_]; [congruence|]. rewrite Nat.eqb_refl. exists []. split; [|reflexivity]. exists (s_log s). split; [reflexivity|intros []].
    + rewrite upd_other in H by auto. destruct (i_since s I p0 H) as (q & S & E). exists (q ++ [GStart e]). split; [apply since_snoc; [congruence|exact S]|]. rewrite of_kids_snoc, DID. cbn [elem_of]. rewrite (memb_kid p e p0 K). destruct (Nat.eqb_spec p0 p) as [->|N1]; [now rewrite E|]. apply Nat.eqb_neq in N. rewrite N, app_nil_r. exact E.
Qed.

(** What ends well leaves its subtree at rest. *)
Lemma end_calm s e r : tinv s -> outcome T s e r -> (0 <= code r)%Z -> kids_calm s e /\ no_error (s_did s e) /\ (t_kind T e <> TNode -> exists v, s_res s e = Some (EReturn v) /\ (0 <= code v)%Z /\ complete (t_kind T e) (s_did s e)).
Proof.
  intros I H R. unfold outcome in H. pose proof (to_kind T TO e) as KO. destruct (t_kind T e) as [|may|may|g k] eqn:Ek.
  - cbn in KO. split; [|split].
    + intros c C. rewrite KO in C. contradiction.
    + intros c v X. apply (i_ev s I) in X. rewrite KO in X. contradiction.
    + congruence.
  - destruct H as [([v|m] & S & P)|(_ & L & _)]; [| |lia]; cbn in P; [subst v|rewrite P in R; vm_compute in R; now contradiction R]. destruct (good_calm s e r I S R) as (A & B & C). rewrite Ek in C. split; [exact A|]. split; [exact B|]. intros _. now exists r.
  - destruct H as [([v|m] & S & P)|(_ & L & _)]; [| |lia]; cbn in P; [subst v|rewrite P in R; vm_compute in R; now contradiction R]. destruct (good_calm s e r I S R) as (A & B & C). rewrite Ek in C. split; [exact A|]. split; [exact B|]. intros _. now exists r.
  - destruct H as [([v|m] & S & P)|(_ & L & _)]; [| |lia]; cbn in P; [subst v|rewrite P in R; vm_compute in R; now contradiction R]. destruct (good_calm s e r I S R) as (A & B & C). rewrite Ek in C. split; [exact A|]. split; [exact B|]. intros _. now exists r.
Qed.
Lemma calm_make s e : kids_calm s e -> s_busy s e = 0 -> (t_kind T e <> TNode -> exists v, s_res s e = Some (EReturn v) /\ (0 <= code v)%Z) -> calm s e.
Proof. intros K Z R d D. destruct (in_top e d D) as [<-|(c & C & J)]; [split; auto|]. destruct (K c C) as [_ X]. now apply X. Qed.
Lemma busy_on s e : tinv s -> 0 < s_busy s e -> s_on s e = true.
Proof. intros I B. destruct (s_on s e) eqn:O; [reflexivity|]. destruct (i_off s I e O) as (_ & _ & Z). lia. Qed.
Lemma inv_end s e r : tinv s -> e <> root -> 0 < s_busy s e -> outcome T s e r -> group_at (t_kind T (t_par T e)) (s_did s (t_par T e) ++ [GFinish e r]) (s_res s (t_par T e)) -> tinv (notes (t_par T e) (GFinish e r) (ends e r s)).
Proof.
  intros I NR B OC G. assert (K : In e (kids (t_par T e))) by (destruct (i_in s I e B); [contradiction|assumption]). set (p := t_par T e) in *. set (s' := notes p (GFinish e r) (ends e r s)).
  destruct (i_kid s I p e K) as [EE LE]. assert (B1 : s_busy s e = 1) by lia. pose proof (busy_on s e I B) as ON. assert (NP : p <> e) by (intros X; apply (kid_neq p e K); now symmetry).
  assert (DID : forall q, s_did s' q = if Nat.eqb q p then s_did s p ++ [GFinish e r] else s_did s q).
  { intros q. cbn. destruct (Nat.eqb_spec q p) as [->|N1]; [now rewrite upd_same|now rewrite upd_other by auto]. }
  assert (CE : forall c, calm s c -> calm s' c).
  { intros c X. apply (calm_ext s); [|exact X]. intros d D. assert (d <> e). { intros ->. destruct (X e D) as [Z _]. lia. } cbn. rewrite !upd_other by auto. auto. }
  split; unfold s'; cbn [notes ends s_on s_res s_busy s_log]; fold s'; intros.
  - rewrite DID. destruct (Nat.eqb_spec p0 p) as [->|N1].
    + rewrite ns_app, ne_app, ns_fin, ne_fin. destruct (Nat.eqb_spec e c) as [<-|N2]; cbn [b2]; [rewrite upd_same; lia|]. rewrite upd_other by auto. pose proof (i_kid s I p c H). lia.
    + assert (c <> e) by (intros ->; apply N1; destruct (kid_par _ _ H), (kid_par _ _ K); congruence). rewrite upd_other by auto. now apply (i_kid s I).
  - rewrite upd_other by auto. apply (i_root s I).
  - assert (p0 <> e) by congruence. rewrite upd_other by auto. destruct (i_off s I p0 H) as (D & R & Z). rewrite DID. destruct (Nat.eqb_spec p0 p) as [->|N1]; [rewrite D in EE; cbn in EE; lia|auto].
  - rewrite DID. destruct (Nat.eqb_spec p0 p) as [->|N1]; [right; exact G|]. apply (i_at s I).
  - rewrite DID. destruct (Nat.eqb_spec p0 p) as [->|N1]; [|apply (i_bal s I)]. apply balanced_snoc; [apply (i_bal s I)|]. cbn [elem_of]. rewrite ns_app, ne_app, ns_fin, ne_fin, Nat.eqb_refl. cbn [b2]. lia.
  - rewrite DID in H. destruct (Nat.eqb_spec p0 p) as [->|N1]; [apply in_app_or in H as [H|[<-|[]]]; [now apply (i_ev s I)|exact K]|now apply (i_ev s I)].
  - destruct (Nat.eq_dec e0 e) as [->|N]; [now right|]. rewrite upd_other in H by auto. now apply (i_in s I).
  - rewrite DID. destruct (Nat.eq_dec c e) as [->|N].
    + destruct (kid_par _ _ H) as [Hp _], (kid_par _ _ K) as [Hq _]. assert (p0 = p) as -> by congruence. rewrite Nat.eqb_refl. destruct (Z_lt_le_dec (code r) 0) as [V|V].
      * right. exists r. split; [exact V|]. apply in_or_app. right. now left.
      * left. destruct (end_calm s e r I OC V) as (KC & _ & R). apply calm_make.
        -- intros c C. destruct (KC c C) as [Zc Xc]. split; [|now apply CE]. cbn. rewrite upd_other; [exact Zc|]. intros ->. lia.
        -- exact H0.
        -- intros Nk. destruct (R Nk) as (v & Rv & Vv & _). exists v. now split.
    + rewrite upd_other in H0 by auto. destruct (i_calm s I p0 c H H0) as [X|(v & V & X)]; [left; now apply CE|right]. exists v. split; [exact V|]. destruct (Nat.eqb_spec p0 p) as [->|N1]; [apply in_or_app; now left|exact X].
  - rewrite upd_other in H by auto. destruct (i_rootb s I H) as [X|(v & V & X)]; [left; now apply CE|right; exists v; split; [exact V|apply in_or_app; now left]].
  - rewrite ns_app, ne_app, ns_fin, ne_fin. pose proof (i_log s I e0). destruct (Nat.eqb_spec e e0) as [<-|N]; cbn [b2]; [rewrite upd_same|rewrite upd_other by auto]; lia.
  - destruct (i_since s I p0 H) as (q & S & E). exists (q ++ [GFinish e r]). split; [apply since_snoc; [congruence|exact S]|]. rewrite of_kids_snoc, DID. cbn [elem_of]. rewrite (memb_kid p e p0 K). destruct (Nat.eqb_spec p0 p) as [->|N1]; [now rewrite E|]. rewrite app_nil_r. exact E.
Qed.
Lemma inv_return s p res : tinv s -> 0 < s_busy s p -> group_at (t_kind T p) (s_did s p) (Some res) -> tinv (returns p res s).
Proof.
  intros I B G. pose proof (busy_on s p I B) as ON.
  assert (CE : forall c, calm s c -> calm (returns p res s) c).
  { intros c X. apply (calm_ext s); [|exact X]. intros d D. assert (d <> p). { intros ->. destruct (X p D) as [Z _]. lia. } cbn. rewrite !upd_other by auto. auto. }
  split; cbn [returns s_on s_did s_res s_busy s_log]; intros.
  - now apply (i_kid s I).
  - apply (i_root s I).
  - assert (p0 <> p) by congruence. rewrite upd_other by auto. now apply (i_off s I).
  - destruct (Nat.eq_dec p0 p) as [->|N]; [rewrite upd_same; now right|rewrite upd_other by auto; apply (i_at s I)].
  - apply (i_bal s I).
  - now apply (i_ev s I).
  - now apply (i_in s I).
  - destruct (i_calm s I p0 c H H0) as [X|X]; [left; now apply CE|now right].
  - destruct (i_rootb s I H) as [X|X]; [left; now apply CE|now right].
  - apply (i_log s I).
  - now apply (i_since s I).
Qed.
Lemma inv_over s r : tinv s -> 0 < s_busy s root -> outcome T s root r -> tinv (ends root r s).
Proof.
  intros I B OC. pose proof (busy_on s root I B) as ON. pose proof (i_root s I) as LR.
  assert (CE : forall c, calm s c -> calm (ends root r s) c).
  { intros c X. apply (calm_ext s); [|exact X]. intros d D. assert (d <> root). { intros ->. destruct (X root D) as [Z _]. lia. } cbn. rewrite !upd_other by auto. auto. }
  split; cbn [ends s_on s_did s_res s_busy s_log]; intros.
  - destruct (kid_par _ _ H) as [_ N]. rewrite upd_other by auto. now apply (i_kid s I).
  - rewrite upd_same. lia.
  - assert (p <> root) by congruence. rewrite upd_other by auto. now apply (i_off s I).
  - apply (i_at s I).
  - apply (i_bal s I).
  - now apply (i_ev s I).
  - destruct (Nat.eq_dec e root) as [->|N]; [now left|]. rewrite upd_other in H by auto. now apply (i_in s I).
  - destruct (kid_par _ _ H) as [_ N]. rewrite upd_other in H0 by auto. destruct (i_calm s I p c H H0) as [X|X]; [left; now apply CE|now right].
  - destruct (Z_lt_le_dec (code r) 0) as [V|V].
    + right. exists r. split; [exact V|]. apply in_or_app. right. now left.
    + left. destruct (end_calm s root r I OC V) as (KC & _ & R). apply calm_make.
      * intros c C. destruct (KC c C) as [Zc Xc]. split; [|now apply CE]. cbn. rewrite upd_other; [exact Zc|]. now destruct (kid_par _ _ C).
      * exact H.
      * intros Nk. destruct (R Nk) as (v & Rv & Vv & _). exists v. now split.
  - rewrite ns_app, ne_app, ns_fin, ne_fin. pose proof (i_log s I e). destruct (Nat.eqb_spec root e) as [<-|N]; cbn [b2]; [rewrite upd_same|rewrite upd_other by auto]; lia.
  - destruct (i_since s I p H) as (q & S & E). exists (q ++ [GFinish root r]). split; [apply since_snoc; [congruence|exact S]|]. rewrite of_kids_snoc. cbn [elem_of]. rewrite memb_root, app_nil_r. exact E.
Qed.
Lemma reach_inv s : reach T s -> tinv s.
Proof.
  induction 1 as [|s s' R IH H]; [exact tinv_new|]. destruct H; [now apply inv_run|now apply inv_start|now apply inv_end|now apply inv_return|now apply inv_over].
Qed.

(** ** Errors below a group *)
Inductive dirty (s : tst) : nat -> Prop :=
| d_err p c v : In c (kids p) -> In (GFinish c v) (s_did s p) -> (code v < 0)%Z -> dirty s p
| d_in p c : In c (kids p) -> s_busy s c = 1 -> dirty s c -> dirty s p.
Definition told (s : tst) : Prop := forall e q z v, since e (s_log s) q -> inside T e z -> z <> e -> In (GFinish z v) q -> (code v < 0)%Z -> dirty s e.
Lemma clean s e r : tinv s -> outcome T s e r -> (0 <= code r)%Z -> ~ dirty s e.
Proof.
  intros I OC R D. destruct (end_calm s e r I OC R) as (KC & N & _). destruct D as [p c v C X V|p c C B D]; [apply N in X; lia|]. destruct (KC c C). lia.
Qed.
Lemma since_inv e lg x q : since e (lg ++ [x]) q -> (x = GStart e /\ q = []) \/ exists q', q = q' ++ [x] /\ since e lg q'.
Proof.
  intros (p & E & F). destruct (rev_case q) as [->|(q' & y & ->)].
  - apply app_inj_tail in E as [_ ->]. now left.
  - change (p ++ GStart e :: q' ++ [y]) with (p ++ (GStart e :: q') ++ [y]) in E. rewrite app_assoc in E. apply app_inj_tail in E as [-> ->]. right. exists q'. split; [reflexivity|]. exists p. split; [reflexivity|]. intros X. apply F. apply in_or_app. now left.
Qed.
Lemma dirty_begins s e : s_busy s e = 0 -> forall d, dirty s d -> d <> e -> dirty (begins e s) d.
Proof.
  intros Z d D. induction D as [p c v C X V|p c C B D IH]; intros N.
  - apply (d_err _ p c v C); [|exact V]. cbn. now rewrite upd_other by auto.
  - assert (c <> e) by (intros ->; lia). apply (d_in _ p c C); [cbn; now rewrite upd_other by auto|auto].
Qed.
Lemma dirty_notes s p x : forall d, dirty s d -> dirty (notes p x s) d.
Proof.
  intros d D. induction D as [q c v C X V|q c C B D IH]; [|now apply (d_in _ q c C)]. apply (d_err _ q c v C); [|exact V]. cbn. destruct (Nat.eq_dec q p) as [->|N]; [rewrite upd_same; apply in_or_app; now left|now rewrite upd_other by auto].
Qed.
Lemma dirty_end s e r : tinv s -> 0 < s_busy s e -> outcome T s e r -> (code r < 0)%Z \/ ~ dirty s e -> forall d, dirty s d -> dirty (notes (t_par T e) (GFinish e r) (ends e r s)) d.
Proof.
  intros I B OC H d D. induction D as [q c v C X V|q c C Bc D IH].
  - apply (dirty_notes (ends e r s)). now apply (d_err _ q c v C).
  - destruct (Nat.eq_dec c e) as [->|N].
    + destruct H as [H|H]; [|contradiction]. apply (d_err _ q e r C); [|exact H]. destruct (kid_par _ _ C) as [-> _]. cbn. rewrite upd_same. apply in_or_app. right. now left.
    + apply (d_in _ q c C); [cbn; now rewrite upd_other by auto|exact IH].
Qed.
Lemma climb s s' x : tinv s -> 0 < s_busy s x -> (forall p, incl (s_did s p) (s_did s' p)) -> (forall c, c <> x -> s_busy s' c = s_busy s c) ->
  forall e p, inside T e p -> inside T p x -> p <> x -> dirty s' p -> dirty s' e.
Proof.
  intros I B DI BU e p J. induction J as [|p0 p J IH K]; [auto|]. intros Jx N D. apply IH.
  - apply (in_trans p0 p); [now apply in_one|exact Jx].
  - intros ->. now apply (kid_deep x p K).
  - destruct (i_kid s I p0 p K) as [_ L]. destruct (Nat.eq_dec (s_busy s p) 1) as [E|E].
    + apply (d_in _ p0 p K); [now rewrite BU|exact D].
    + destruct (i_calm s I p0 p K) as [X|(v & V & X)]; [lia| |].
      * destruct (X x Jx) as [Z _]. lia.
      * apply (d_err _ p0 p v K); [now apply DI|exact V].
Qed.
Lemma reach_told s : reach T s -> told s.
Proof.
  induction 1 as [|s s' R IH H]; [intros e q z v (p & E & _); symmetry in E; apply app_eq_nil in E as [_ E]; discriminate|].
  pose proof (reach_inv s R) as I. destruct H as [H|e NR O G|e r NR B OC G|p res B Rs G|r B OC]; intros d q z v S J NE X V.
  - cbn [begins s_log] in S. apply since_inv in S as [[_ ->]|(q' & -> & S)]; [contradiction|]. apply in_app_or in X as [X|[X|[]]]; [|discriminate].
    assert (Zr : s_busy s root = 0) by (destruct H as [H|[H _]]; [now apply (i_off s I)|exact H]). destruct (Nat.eq_dec d root) as [->|Nd].
    + exfalso. destruct H as [H|[_ (w & Rw & Vw)]].
      * assert (Y : n_starts root (s_log s) = 0 -> False). { destruct S as (p & -> & _). rewrite ns_app. change (GStart root :: q') with ([GStart root] ++ q'). rewrite ns_app, ns_start, Nat.eqb_refl. cbn [b2]. lia. }
        apply Y. clear Y. clear -R H TO. induction R as [|s s' R IH St]; [reflexivity|]. pose proof (reach_inv s R) as I. destruct St as [K|e NR O G|e r NR B OC G|p res B Rs G|r B OC]; cbn [begins notes ends returns s_on s_log] in H |- *.
        -- rewrite upd_same in H. discriminate.
        -- rewrite upd_other in H by auto. rewrite ns_app, ns_start, IH by exact H. apply Nat.eqb_neq in NR. now rewrite NR.
        -- rewrite ns_app, ns_fin, IH by exact H. reflexivity.
        -- now apply IH.
        -- pose proof (busy_on s root I B). congruence.
      * destruct (good_calm s root w I Rw Vw) as (KC & N & _). specialize (IH root q' z v S J NE X V). destruct IH as [p c u C Y U|p c C Bc D]; [apply N in Y; lia|]. destruct (KC c C). lia.
    + apply dirty_begins; [exact Zr| |exact Nd]. now apply (IH d q' z v).
  - destruct (start_calm s e I O G) as (K & Z & C & U). cbn [notes begins s_log] in S. apply since_inv in S as [[_ ->]|(q' & -> & S)]; [contradiction|]. apply in_app_or in X as [X|[X|[]]]; [|discriminate].
    apply dirty_notes. specialize (IH d q' z v S J NE X V). apply dirty_begins; [exact Z|exact IH|]. intros ->.
    destruct IH as [p c u Cc Y W|p c Cc Bc D].
    + assert (Ro : s_did s p = [] \/ t_kind T p <> TNode). { destruct (i_at s I p) as [[Q _]|Q]; [now left|right; intros E; rewrite E in Q; exact Q]. } destruct Ro as [Ro|Ro]; [rewrite Ro in Y; contradiction|].
      destruct (C p (in_self T p)) as [_ Q]. destruct Q as (w & Rw & Vw); [exact Ro| |].
      * destruct (s_on s p) eqn:On; [reflexivity|]. destruct (i_off s I p On) as [Q _]. rewrite Q in Y. contradiction.
      * destruct (good_calm s p w I Rw Vw) as (_ & N & _). apply N in Y. lia.
    + destruct (C c (in_one _ _ Cc)) as [Zc _]. lia.
  - cbn [notes ends s_log] in S. apply since_inv in S as [[S _]|(q' & -> & S)]; [discriminate|]. apply in_app_or in X as [X|[X|[]]].
    + apply dirty_end; [exact I|exact B|exact OC| |now apply (IH d q' z v)]. destruct (Z_lt_le_dec (code r) 0) as [W|W]; [now left|right; now apply (clean s e r)].
    + injection X as <- <-. destruct (in_par d e J NE) as [J' K]. apply (climb s) with (x := e) (p := t_par T e); try assumption.
      * intros p y Y. cbn. destruct (Nat.eq_dec p (t_par T e)) as [->|N]; [rewrite upd_same; apply in_or_app; now left|now rewrite upd_other by auto].
      * intros c N. cbn. now rewrite upd_other by auto.
      * now apply in_one.
      * intros E. apply (kid_neq _ _ K). now symmetry.
      * apply (d_err _ (t_par T e) e r K); [|exact V]. cbn. rewrite upd_same. apply in_or_app. right. now left.
  - cbn [returns s_log] in S. specialize (IH d q z v S J NE X V). clear -IH. induction IH as [p0 c u C Y U|p0 c C Bc D IHD]; [now apply (d_err _ p0 c u C)|now apply (d_in _ p0 c C)].
  - cbn [ends s_log] in S. apply since_inv in S as [[S _]|(q' & -> & S)]; [discriminate|]. apply in_app_or in X as [X|[X|[]]].
    + specialize (IH d q' z v S J NE X V). clear -IH TO. induction IH as [p0 c u C Y U|p0 c C Bc D IHD]; [now apply (d_err _ p0 c u C)|]. apply (d_in _ p0 c C); [|exact IHD]. cbn. rewrite upd_other; [exact Bc|]. now destruct (kid_par _ _ C).
    + injection X as <- <-. apply in_root in J. now symmetry in J.
Qed.

(** ** The moment at which an event was logged *)
Lemma reach_cut s L1 x L2 : reach T s -> s_log s = L1 ++ x :: L2 -> exists s1 s2, reach T s1 /\ tstep T s1 s2 /\ s_log s1 = L1 /\ s_log s2 = L1 ++ [x].
Proof.
  intros R. revert L2. induction R as [|s s' R IH H]; intros L2 E; [symmetry in E; apply app_eq_nil in E as [_ E]; discriminate|].
  assert (C : s_log s' = s_log s \/ exists y, s_log s' = s_log s ++ [y]) by (destruct H; cbn; eauto).
  destruct C as [C|[y C]]; [rewrite C in E; now apply (IH L2)|]. rewrite C in E. destruct (rev_case L2) as [->|(L' & w & ->)].
  - apply app_inj_tail in E as [E ->]. exists s, s'. rewrite C, E. auto.
  - change (L1 ++ x :: L' ++ [w]) with (L1 ++ (x :: L') ++ [w]) in E. rewrite app_assoc in E. apply app_inj_tail in E as [E _]. now apply (IH L').
Qed.
Lemma app_self {A} (l : list A) x : l = l ++ [x] -> False.
Proof. intros E. apply (f_equal (@length A)) in E. rewrite app_length in E. cbn in E. lia. Qed.
Lemma step_start s s' e : tstep T s s' -> s_log s' = s_log s ++ [GStart e] ->
  (e = root /\ s' = begins root s /\ (s_on s root = false \/ (s_busy s root = 0 /\ exists v, s_res s root = Some (EReturn v) /\ (0 <= code v)%Z))) \/
  (e <> root /\ s' = notes (t_par T e) (GStart e) (begins e s) /\ s_on s (t_par T e) = true /\ group_at (t_kind T (t_par T e)) (s_did s (t_par T e) ++ [GStart e]) (s_res s (t_par T e))).
Proof.
  intros H E. destruct H as [H|d NR O G|d r NR B OC G|p res B Rs G|r B OC]; cbn in E.
  - apply app_inj_tail in E as [_ [= <-]]. now left.
  - apply app_inj_tail in E as [_ [= <-]]. right. auto.
  - apply app_inj_tail in E as [_ E]. discriminate.
  - now apply app_self in E.
  - apply app_inj_tail in E as [_ E]. discriminate.
Qed.
Lemma step_fin s s' e r : tstep T s s' -> s_log s' = s_log s ++ [GFinish e r] -> 0 < s_busy s e /\ outcome T s e r.
Proof.
  intros H E. destruct H as [H|d NR O G|d w NR B OC G|p res B Rs G|w B OC]; cbn in E.
  - apply app_inj_tail in E as [_ E]. discriminate.
  - apply app_inj_tail in E as [_ E]. discriminate.
  - apply app_inj_tail in E as [_ [= <- <-]]. now split.
  - now apply app_self in E.
  - apply app_inj_tail in E as [_ [= <- <-]]. now split.
Qed.
Lemma did_log s p x : tinv s -> In x (s_did s p) -> exists q, since p (s_log s) q /\ s_did s p = of_kids T p q /\ In x q.
Proof.
  intros I X. destruct (s_on s p) eqn:O; [|destruct (i_off s I p O) as [D _]; rewrite D in X; contradiction]. destruct (i_since s I p O) as (q & S & E). exists q. split; [exact S|]. split; [exact E|]. rewrite E in X. now apply filter_In in X as [X _].
Qed.
Lemma since_in e lg q x : since e lg q -> In x q -> In x lg.
Proof. intros (p & -> & _) X. apply in_or_app. right. now right. Qed.
Lemma idle_busy s e : tinv s -> s_busy s e = 0 <-> idle (s_log s) e.
Proof. intros I. unfold idle. pose proof (i_log s I e). lia. Qed.
Lemma running_busy s e : tinv s -> s_busy s e = 1 <-> running (s_log s) e.
Proof. intros I. unfold running. pose proof (i_log s I e). lia. Qed.
Lemma busy_le s e : tinv s -> s_busy s e <= 1.
Proof. intros I. destruct (Nat.eq_dec (s_busy s e) 0) as [->|N]; [lia|]. destruct (i_in s I e) as [->|K]; [lia|apply (i_root s I)|]. now destruct (i_kid s I _ e K). Qed.

Lemma tree_order s r a b y L1 L2 : reach T s -> In a (kids r) -> In b (kids r) -> precedes T r a b -> inside T b y -> s_log s = L1 ++ GStart y :: L2 ->
  exists q st, since r L1 q /\ In (GFinish a st) q /\ (0 <= code st)%Z /\ forall x, inside T a x -> idle L1 x.
Proof.
  intros R A B P J E. destruct (reach_cut s L1 _ L2 R E) as (s1 & s2 & R1 & St & E1 & E2). rewrite <- E1 in E2. pose proof (reach_inv s1 R1) as I.
  destruct (step_start s1 s2 y St E2) as [(-> & _)|(NR & -> & O & G)]; [apply in_root in J; subst b; now destruct (kid_par _ _ B)|].
  destruct (start_calm s1 y I O G) as (K & Z & C & U).
  assert (X : exists tr, group_at (t_kind T r) tr (s_res s1 r) /\ balanced tr /\ (tr = s_did s1 r \/ tr = s_did s1 r ++ [GStart b]) /\ exists t1 t2, tr = t1 ++ GStart b :: t2).
  { destruct (Nat.eq_dec b y) as [->|N].
    - destruct (kid_par _ _ B) as [Hp _]. rewrite Hp in G. exists (s_did s1 r ++ [GStart y]). split; [exact G|]. split; [|split; [now right|now exists (s_did s1 r), []]]. apply balanced_snoc; [apply (i_bal s1 I)|]. cbn [elem_of]. rewrite ns_app, ne_app, ns_start, ne_start, Nat.eqb_refl. cbn [b2]. pose proof (i_kid s1 I r y B). lia.
    - assert (Y : In (GStart b) (s_did s1 r)).
      { destruct (in_dec Nat.eq_dec b (starts (s_did s1 r))) as [Y|Y]; [now apply in_starts|]. exfalso. assert (Y0 : ~ In (GStart b) (s_did s1 r)) by (intros Q; apply Y; now apply in_starts). apply ns_zero in Y0. destruct (i_kid s1 I r b B) as [Q _].
        destruct (i_calm s1 I r b B) as [M|(v & _ & M)]; [lia|apply N; now apply U|]. apply ne_pos in M. lia. }
      exists (s_did s1 r). split; [|split; [apply (i_bal s1 I)|split; [now left|now apply in_split]]]. destruct (i_at s1 I r) as [[D _]|D]; [rewrite D in Y; contradiction|exact D]. }
  destruct X as (tr & Gt & Bt & Dt & t1 & t2 & Et). destruct (at_order _ _ (to_kind T TO r) tr (s_res s1 r) a b t1 t2 Gt P Bt Et) as ((v & Fv & Vv) & Ea & Ga).
  assert (AB : forall w, In (GFinish a w) tr <-> In (GFinish a w) (s_did s1 r)).
  { intros w. destruct Dt as [->| ->]; [reflexivity|]. rewrite in_app_iff. cbn. split; [intros [Q|[Q|[]]]; [exact Q|discriminate]|now left]. }
  assert (FA : In (GFinish a v) (s_did s1 r)). { apply AB. rewrite Et. apply in_or_app. now left. }
  destruct (did_log s1 r _ I FA) as (q & Sq & Dq & Fq). exists q, v. rewrite E1 in Sq. split; [exact Sq|]. split; [exact Fq|]. split; [exact Vv|].
  assert (Za : s_busy s1 a = 0).
  { destruct (i_kid s1 I r a A) as [Q _]. destruct Dt as [Dt|Dt]; rewrite Dt in Ea; [lia|]. rewrite ns_app, ne_app, ns_start, ne_start in Ea. destruct (Nat.eqb_spec b a) as [->|_]; cbn [b2] in Ea; [|lia]. lia. }
  destruct (i_calm s1 I r a A Za) as [M|(w & W & M)]; [|apply AB, Ga in M; lia]. intros x Jx. rewrite <- E1. apply (idle_busy s1 x I). now apply M.
Qed.
Lemma tree_inside s e x L1 L2 : reach T s -> inside T e x -> x <> e -> s_log s = L1 ++ GStart x :: L2 -> running L1 e \/ exists v, (code v < 0)%Z /\ In (GFinish e v) L1.
Proof.
  intros R J NE E. destruct (reach_cut s L1 _ L2 R E) as (s1 & s2 & R1 & St & E1 & E2). rewrite <- E1 in E2. pose proof (reach_inv s1 R1) as I.
  destruct (step_start s1 s2 x St E2) as [(-> & _)|(NR & -> & O & G)]; [apply in_root in J; congruence|]. destruct (start_calm s1 x I O G) as (K & Z & C & U). rewrite <- E1.
  destruct (Nat.eq_dec (s_busy s1 e) 0) as [B|B]; [right|left; apply running_busy; [exact I|]; pose proof (busy_le s1 e I); lia].
  destruct (Nat.eq_dec e root) as [->|Ne].
  - destruct (i_rootb s1 I B) as [M|M]; [|exact M]. exfalso. apply NE. symmetry. now apply U.
  - assert (Ke : In e (kids (t_par T e))).
    { destruct (in_dec Nat.eq_dec e (kids (t_par T e))) as [Q|Q]; [exact Q|exfalso]. 
      (* an element outside the tree: nothing in it is on *)
      destruct (in_top e x J) as [X|(c & Cc & Jc)]; [congruence|].
      assert (F : forall d, s_on s1 d = true -> d = root \/ In d (kids (t_par T d))).
      { clear -R1 TO. induction R1 as [|s s' R IH H]; [discriminate|]. pose proof (reach_inv s R) as I. destruct H as [H|f NR O G|f r NR B OC G|p res B Rs G|r B OC]; cbn; intros d D; try now apply IH.
        - destruct (Nat.eq_dec d root) as [->|N]; [now left|]. rewrite upd_other in D by auto. now apply IH.
        - destruct (Nat.eq_dec d f) as [->|N]; [right|rewrite upd_other in D by auto; now apply IH]. now destruct (start_calm s f I O G). }
      assert (On : s_on s1 e = false) by (destruct (s_on s1 e) eqn:Q1; [destruct (F e Q1); contradiction|reflexivity]).
      destruct (off_calm s1 e I On c Cc) as [_ M]. assert (c = x) by now apply U. subst c. destruct (kid_par _ _ Cc) as [Hp _]. rewrite Hp in O. congruence. }
    destruct (i_calm s1 I _ e Ke B) as [M|(v & V & M)]; [exfalso; apply NE; symmetry; now apply U|]. exists v. split; [exact V|]. destruct (did_log s1 _ _ I M) as (q & Sq & _ & Fq). now apply (since_in (t_par T e) _ q).
Qed.
Lemma tree_rest s e x L1 L2 : reach T s -> inside T e x -> s_log s = L1 ++ GStart e :: L2 -> idle L1 x.
Proof.
  intros R J E. destruct (reach_cut s L1 _ L2 R E) as (s1 & s2 & R1 & St & E1 & E2). rewrite <- E1 in E2. pose proof (reach_inv s1 R1) as I. rewrite <- E1. apply idle_busy; [exact I|].
  destruct (step_start s1 s2 e St E2) as [(-> & _ & H)|(NR & -> & O & G)].
  - assert (K : kids_calm s1 root /\ s_busy s1 root = 0).
    { destruct H as [H|[Z (v & Rv & V)]]; [split; [now apply off_calm|now apply (i_off s1 I)]|]. split; [now apply (good_calm s1 root v)|exact Z]. }
    destruct K as [K Z]. destruct (in_top _ _ J) as [<-|(c & C & Jc)]; [exact Z|]. destruct (K c C) as [_ M]. now apply M.
  - destruct (start_calm s1 e I O G) as (_ & _ & C & _). now apply C.
Qed.
Lemma tree_success s e st L1 L2 : reach T s -> s_log s = L1 ++ GFinish e st :: L2 -> (0 <= code st)%Z ->
  exists q, since e L1 q /\ complete (t_kind T e) (of_kids T e q) /\ forall x, inside T e x -> x <> e -> idle L1 x /\ forall v, In (GFinish x v) q -> (0 <= code v)%Z.
Proof.
  intros R E V. destruct (reach_cut s L1 _ L2 R E) as (s1 & s2 & R1 & St & E1 & E2). rewrite <- E1 in E2. pose proof (reach_inv s1 R1) as I.
  destruct (step_fin s1 s2 e st St E2) as [B OC]. destruct (end_calm s1 e st I OC V) as (KC & N & Rs). destruct (i_since s1 I e (busy_on s1 e I B)) as (q & Sq & Dq). rewrite E1 in Sq. exists q. split; [exact Sq|]. split.
  - rewrite <- Dq. destruct (t_kind T e) eqn:Ek; [exact Logic.I| | |]; destruct Rs as (w & _ & _ & C); try discriminate; rewrite <- Ek; rewrite Ek; exact C.
  - intros x J NE. split.
    + rewrite <- E1. apply idle_busy; [exact I|]. destruct (in_top _ _ J) as [X|(c & C & Jc)]; [congruence|]. destruct (KC c C) as [_ M]. now apply M.
    + intros v X. destruct (Z_lt_le_dec (code v) 0) as [W|W]; [|exact W]. exfalso. apply (clean s1 e st I OC V). rewrite <- E1 in Sq. now apply (reach_told s1 R1 e q x v).
Qed.
Lemma since_nest a lg q c v q1 q2 qc : since a lg q -> q = q1 ++ GFinish c v :: q2 -> In (GStart c) q1 -> forall p, lg = p ++ GStart a :: q -> since c (p ++ GStart a :: q1) qc -> incl qc q1.
Proof.
  intros _ _ H p _ (pc & E & F) x X. apply in_split in H as (u1 & u2 & ->).
  assert (G : forall (l1 l2 m1 m2 : list gevent), l1 ++ GStart c :: l2 = m1 ++ GStart c :: m2 -> ~ In (GStart c) m2 -> incl m2 l2).
  { induction l1 as [|h l1 IH]; intros l2 [|k m1] m2 Q NI; cbn in Q; assert (Q2 := f_equal (@tl gevent) Q); cbn in Q2.
    - rewrite Q2. apply incl_refl.
    - rewrite Q2. intros y Y. apply in_or_app. right. now right.
    - exfalso. apply NI. rewrite <- Q2. apply in_or_app. right. now left.
    - now apply (IH l2 m1 m2). }
  apply in_or_app. right. right. apply (G (p ++ GStart a :: u1) u2 pc qc); [|exact F|exact X]. rewrite <- E, <- app_assoc. reflexivity.
Qed.
Lemma tree_source n : forall s e r L1 L2, length L1 < n -> reach T s -> s_log s = L1 ++ GFinish e r :: L2 -> (code r < 0)%Z ->
  exists q z v, since e L1 q /\ inside T e z /\ In (GFinish z v) (q ++ [GFinish e r]) /\ code v = code r /\ source T z.
Proof.
  induction n as [|n IH]; [lia|]. intros s e r L1 L2 Ln R E V. destruct (reach_cut s L1 _ L2 R E) as (s1 & s2 & R1 & St & E1 & E2). rewrite <- E1 in E2. pose proof (reach_inv s1 R1) as I.
  destruct (step_fin s1 s2 e r St E2) as [B OC]. destruct (i_since s1 I e (busy_on s1 e I B)) as (q & Sq & Dq). exists q.
  assert (OC' : source T e \/ exists res, s_res s1 e = Some res /\ reports res r).
  { unfold outcome in OC. unfold source. destruct (t_kind T e); [now left; left| | |]; (destruct OC as [OC|[OC _]]; [now right|left; now right]). }
  destruct OC' as [S|(res & Rs & Rp)].
  - exists e, r. rewrite E1 in Sq. split; [exact Sq|]. split; [constructor|]. split; [apply in_or_app; right; now left|]. now split.
  - destruct (i_at s1 I e) as [[_ Q]|G]; [congruence|]. rewrite Rs in G. destruct (at_bad _ _ (to_kind T TO e) _ _ _ G Rp V) as (c & v & Fc & Cv).
    pose proof (i_ev s1 I e _ Fc) as Kc. cbn [elem_of] in Kc. rewrite Dq in Fc. apply filter_In in Fc as [Fc _]. apply in_split in Fc as (q1 & q2 & Eq). destruct Sq as (p & Ep & Fp). rewrite E1 in Ep.
    assert (El : s_log s = (p ++ GStart e :: q1) ++ GFinish c v :: (q2 ++ GFinish e r :: L2)). { rewrite E, Ep, Eq. rewrite <- !app_assoc. cbn. now rewrite <- !app_assoc. }
    destruct (IH s c v (p ++ GStart e :: q1) (q2 ++ GFinish e r :: L2)) as (qc & z & w & Sc & Jz & Fz & Cw & So); [|exact R|exact El|lia|].
    { rewrite Ep, Eq in Ln. rewrite !app_length in *. cbn [length] in *. rewrite app_length in Ln. cbn [length] in Ln. lia. }
    assert (Hs : In (GStart c) q1).
    { pose proof (i_bal s1 I e) as Bl. rewrite Dq, Eq in Bl. unfold of_kids in Bl. rewrite filter_app in Bl. cbn [filter elem_of] in Bl. assert (Mc : memb c (kids e) = true) by now apply memb_in. rewrite Mc in Bl.
      change (GFinish c v :: ?l) with ([GFinish c v] ++ l) in Bl. rewrite app_assoc in Bl. specialize (Bl _ _ c eq_refl). rewrite ns_app, ne_app, ns_fin, ne_fin, Nat.eqb_refl in Bl. cbn [b2] in Bl.
      destruct (in_dec Nat.eq_dec c (starts (filter (fun x => memb (elem_of x) (kids e)) q1))) as [Q|Q]; [apply in_starts in Q; now apply filter_In in Q as [Q _]|]. exfalso. assert (Q0 : ~ In (GStart c) (filter (fun x => memb (elem_of x) (kids e)) q1)) by (intros Y; apply Q; now apply in_starts). apply ns_zero in Q0. lia. }
    exists z, w. split; [now exists p|]. split; [apply (in_trans e c); [now apply in_one|exact Jz]|]. split; [|split; [lia|exact So]].
    apply in_or_app. left. rewrite Eq. apply in_app_or in Fz as [Fz|[Fz|[]]]; [|apply in_or_app; right; left; exact Fz]. apply in_or_app. left.
    apply (since_nest e (p ++ GStart e :: q) q c v q1 q2 qc) with (p := p); auto. exists p. now split.
Qed.
End T.
