(** C104: every element has one place in the pipeline. *)
From Verif Require Import PlaceModel PlaceSpec PlaceProofs.
From Coq Require Import Lia Permutation.
Local Open Scope nat_scope.
Local Open Scope list_scope.

Lemma inside_up h : cpp h -> once h -> forall e t, inside h e t <-> exists l, upwards (l_after h) e l /\ In t l.
Proof.
  intros C O e t. pose proof (linv_all h C) as I. split.
  - induction 1 as [e|e g els t M E _ (l & U & T)].
    + destruct (path_some _ _ _ I (S (length h - e)) e ltac:(lia)) as (l & _ & U). exists l. split; [exact U|exact (up_head _ _ _ U)].
    + exists (e :: l). split; [|now right]. eapply up_step; [|exact U]. apply (kid_belong _ _ _ I O). now rewrite (kids_made h g els C M).
  - intros (l & U & T). induction U as [e B|e g l B U IH].
    + destruct T as [<-|[]]. constructor.
    + destruct T as [<-|T]; [constructor|]. apply (v_bel I) in B. eapply in_group; [eapply made_kids; eassumption|exact B|auto].
Qed.
(** When every element is put into one group or registered, once, then init reaches exactly the registered elements and what is inside of them, each once;
    belong and children of getRelation tell the same; and what belongs nowhere is a root or unused.
    Missing for the full property: the calls that break this are accepted, see the refutations. *)
Theorem C104_tree_partial : forall h, cpp h -> once h ->
  exists inits, (forall fuel, length h <= fuel -> init_calls fuel (l_after h) = Some inits) /\ NoDup inits /\
    (forall e, In e inits <-> exists t, In t (roots_of h) /\ inside h e t) /\
    (forall e g, l_belong (l_after h) e = Some g <-> exists els, made_of h g els /\ In e els) /\
    (forall g els, made_of h g els -> l_kids (l_after h) g = els).
Proof.
  intros h C O. pose proof (linv_all h C) as I. exists (flat_map (w (k (l_after h))) (l_roots (l_after h))). split; [|split; [|split; [|split]]].
  - intros f F. eapply init_list; eassumption.
  - eapply init_nodup; eassumption.
  - intro e. rewrite in_flat_map, (roots_built h C). split.
    + intros (t & T & H). exists t. split; [exact T|]. apply inside_up; [exact C|exact O|]. eapply w_up; eassumption.
    + intros (t & T & H). exists t. split; [exact T|]. apply inside_up in H; [|exact C|exact O]. eapply w_up; eassumption.
  - intros e g. rewrite <- (kid_belong _ _ _ I O e g). split.
    + intro H. exists (l_kids (l_after h) g). split; [eapply made_kids; eassumption|exact H].
    + intros (els & M & H). now rewrite (kids_made h g els C M).
  - intros g els. now apply kids_made.
Qed.
(** Whatever the C++ interface accepted: the path of groups around an element is finite, and so are init and destroy. *)
Theorem C104_path_partial : forall h, cpp h ->
  (forall e, exists l, upwards (l_after h) e l /\ forall fuel, length h < fuel -> deep_path fuel (l_belong (l_after h)) e = Some l) /\
  exists inits, forall fuel, length h <= fuel -> init_calls fuel (l_after h) = Some inits.
Proof.
  intros h C. pose proof (linv_all h C) as I. split.
  - intro e. destruct (path_some _ _ _ I (S (length h)) e ltac:(lia)) as (l & _ & U). exists l. split; [exact U|]. intros f F.
    destruct (path_some _ _ _ I f e ltac:(lia)) as (l' & -> & U'). f_equal. eapply up_det; eassumption.
  - exists (flat_map (w (init_kids (l_after h))) (l_roots (l_after h))). intros f F. unfold init_calls. apply concat_some. intros r R. apply walk_w; [eapply down_init; exact I|].
    apply (v_root I), (v_mgr I) in R. lia.
Qed.

Lemma inits_of h f : cpp h -> length h <= f -> init_calls f (l_after h) = Some (flat_map (w (init_kids (l_after h))) (roots_of h)).
Proof.
  intros C F. pose proof (linv_all h C) as I. rewrite <- roots_built by exact C. unfold init_calls. apply concat_some. intros r R. apply walk_w; [eapply down_init; exact I|].
  apply (v_root I), (v_mgr I) in R. lia.
Qed.
Lemma cpp_app h x : cpp h -> cpp x -> cpp (h ++ x).
Proof. intros A B o H. apply in_app_iff in H. destruct H; [now apply A|now apply B]. Qed.
Lemma cpp_one h o : cpp h -> fine_op o -> cpp (h ++ [o]).
Proof. intros A B. apply cpp_app; [exact A|]. intros o' [<-|[]]. exact B. Qed.
Lemma made_last h r els : cpp h -> (forall e, In e els -> In e (l_all (l_after h))) -> made_of (h ++ [LGroup r els]) (length h) els.
Proof.
  intros C E. exists r. rewrite nth_error_app2, Nat.sub_diag by lia. split; [reflexivity|]. rewrite l_answers_snoc, nth_error_app2, answers_len, Nat.sub_diag by (rewrite answers_len; lia). cbn. f_equal. now apply accept_group.
Qed.
Lemma made_more h o g els : made_of h g els -> made_of (h ++ [o]) g els.
Proof.
  intros (r & E & A). exists r. assert (g < length h) by (apply nth_error_Some; congruence). rewrite nth_error_app1 by assumption. split; [exact E|]. rewrite l_answers_snoc, nth_error_app1 by (rewrite answers_len; assumption). exact A.
Qed.
Lemma all_more h o e : cpp h -> fine_op o -> In e (l_all (l_after h)) -> In e (l_all (l_after (h ++ [o]))).
Proof. intros C F H. rewrite l_after_snoc. pose proof (linv_all h C) as I. apply (step_keeps _ _ _ o I F); [now apply (v_lt I)|exact H]. Qed.
Lemma all_last h o : cpp h -> (o = LNode \/ o = LRegNew \/ exists r, o = LGroup r []) -> In (length h) (l_all (l_after (h ++ [o]))).
Proof.
  intros C O. assert (F : fine_op o) by (destruct O as [->|[->|(r & ->)]]; exact Logic.I). pose proof (all_built (h ++ [o]) (cpp_one h o C F) (length h)) as B. unfold built in B.
  rewrite nth_error_app2, Nat.sub_diag in B by lia. rewrite l_answers_snoc, nth_error_app2, answers_len, Nat.sub_diag in B by (rewrite answers_len; lia). cbn [nth_error] in B. destruct O as [->|[->|(r & ->)]].
  - apply B.
  - rewrite accept_new in B by exact C. apply B.
  - rewrite accept_group in B; [apply B|exact C|]. intros e [].
Qed.
Lemma roots_more h o : roots_of (h ++ [o]) = roots_of h ++ counted (snd (l_step (length h) (l_after h) o)) (registers (length h) o).
Proof. unfold roots_of. rewrite l_answers_snoc, registered_snoc by apply answers_len. reflexivity. Qed.
Lemma roots_lt h r : cpp h -> In r (roots_of h) -> r < length h.
Proof. intros C R. pose proof (linv_all h C) as I. rewrite <- roots_built in R by exact C. now apply (v_mgr I), (v_root I). Qed.
Lemma reg_last h g r els : cpp h -> made_of h g els -> nth_error h g = Some (LGroup r els) -> (forall x, In x (roots_of h) -> x < g) ->
  snd (l_step (length h) (l_after h) (LRegType g)) = LOk /\ roots_of (h ++ [LRegType g]) = roots_of h ++ [g].
Proof.
  intros C M E R. assert (A : snd (l_step (length h) (l_after h) (LRegType g)) = LOk) by (eapply accept_type; try eassumption; rewrite roots_built by exact C; exact R).
  split; [exact A|]. now rewrite roots_more, A.
Qed.
Lemma count_in l (x : nat) : In x l -> 1 <= count_occ Nat.eq_dec l x.
Proof. intro H. apply (count_occ_In Nat.eq_dec) in H. lia. Qed.
Lemma init_kids_in s g e : In e (init_kids s g) <-> In e (l_kids s g).
Proof.
  unfold init_kids. destruct (l_region s g); [|reflexivity]. assert (X : forall l acc, In e (fold_left (fun l e => set_add e l) l acc) <-> In e acc \/ In e l).
  { induction l as [|x l IH]; intro acc; cbn; [tauto|]. rewrite IH. unfold set_add. destruct (memb x acc) eqn:M; [apply memb_in in M|]; [split; [tauto|]; intros [H|[->|H]]; tauto|rewrite in_app_iff; cbn; tauto]. }
  rewrite X. cbn. tauto.
Qed.
Lemma w_kid h g e els : cpp h -> made_of h g els -> In e els -> In e (w (init_kids (l_after h)) g).
Proof.
  intros C M E. pose proof (down_init _ _ _ (linv_all h C)) as D. rewrite w_eq by exact D. right. apply in_flat_map. exists e. split.
  - apply init_kids_in. now rewrite (kids_made h g els C M).
  - rewrite w_eq by exact D. now left.
Qed.
Lemma w_self h e : cpp h -> In e (w (init_kids (l_after h)) e).
Proof. intros C. pose proof (down_init _ _ _ (linv_all h C)) as D. rewrite w_eq by exact D. now left. Qed.
(** After every history: one element in two groups, both registered. All calls are accepted, and init initialises the element twice. *)
Theorem C104_shared_refuted : forall h r1 r2, cpp h -> let n := length h in
  let h' := h ++ [LNode; LGroup r1 [n]; LGroup r2 [n]; LRegType (S n); LRegType (S (S n))] in
  l_answers h' = l_answers h ++ [LOk; LOk; LOk; LOk; LOk] /\
  exists inits, init_calls (length h') (l_after h') = Some inits /\ 2 <= count_occ Nat.eq_dec inits n.
Proof.
  intros h r1 r2 C n h'.
  set (h1 := h ++ [LNode]). assert (C1 : cpp h1) by (apply cpp_one; [exact C|exact I]). assert (L1 : length h1 = S n) by (unfold h1; rewrite app_length; cbn; lia).
  assert (N1 : In n (l_all (l_after h1))) by (apply all_last; auto).
  set (h2 := h1 ++ [LGroup r1 [n]]). assert (C2 : cpp h2) by (apply cpp_one; [exact C1|exact I]). assert (L2 : length h2 = S (S n)) by (unfold h2; rewrite app_length; cbn; lia).
  assert (M2 : made_of h2 (S n) [n]) by (rewrite <- L1; apply made_last; [exact C1|]; intros e [<-|[]]; exact N1).
  assert (N2 : In n (l_all (l_after h2))) by (apply all_more; [exact C1|exact I|exact N1]).
  set (h3 := h2 ++ [LGroup r2 [n]]). assert (C3 : cpp h3) by (apply cpp_one; [exact C2|exact I]). assert (L3 : length h3 = S (S (S n))) by (unfold h3; rewrite app_length; cbn; lia).
  assert (M3 : made_of h3 (S (S n)) [n]) by (rewrite <- L2; apply made_last; [exact C2|]; intros e [<-|[]]; exact N2).
  assert (M3' : made_of h3 (S n) [n]) by now apply made_more.
  assert (R3 : roots_of h3 = roots_of h) by (unfold h3, h2, h1; rewrite !roots_more; cbn [registers]; destruct (snd _); destruct (snd _); destruct (snd _); cbn; now rewrite ?app_nil_r).
  destruct (reg_last h3 (S n) r1 [n]) as [A4 R4]; [exact C3|exact M3'| | |].
  { unfold h3, h2. rewrite <- app_assoc, nth_error_app2 by lia. rewrite L1, Nat.sub_diag. reflexivity. }
  { intros x X. rewrite R3 in X. apply roots_lt in X; [|exact C]. unfold n. lia. }
  set (h4 := h3 ++ [LRegType (S n)]) in *. assert (C4 : cpp h4) by (apply cpp_one; [exact C3|exact I]).
  assert (M4 : made_of h4 (S (S n)) [n]) by now apply made_more. assert (M4' : made_of h4 (S n) [n]) by now apply made_more.
  destruct (reg_last h4 (S (S n)) r2 [n]) as [A5 R5]; [exact C4|exact M4| | |].
  { unfold h4, h3. rewrite <- app_assoc, nth_error_app2 by lia. rewrite L2, Nat.sub_diag. reflexivity. }
  { intros x X. rewrite R4, R3 in X. apply in_app_iff in X. destruct X as [X|[<-|[]]]; [apply roots_lt in X; [unfold n; lia|exact C]|lia]. }
  set (h5 := h4 ++ [LRegType (S (S n))]) in *. assert (C5 : cpp h5) by (apply cpp_one; [exact C4|exact I]).
  assert (M5 : made_of h5 (S (S n)) [n]) by now apply made_more. assert (M5' : made_of h5 (S n) [n]) by now apply made_more.
  assert (E : h' = h5) by (unfold h', h5, h4, h3, h2, h1; now rewrite <- !app_assoc). rewrite E. split.
  - unfold h5. rewrite l_answers_snoc, A5. unfold h4. rewrite l_answers_snoc, A4. unfold h3. rewrite l_answers_snoc, accept_group; [|exact C2|intros e [<-|[]]; exact N2].
    unfold h2. rewrite l_answers_snoc, accept_group; [|exact C1|intros e [<-|[]]; exact N1]. unfold h1. rewrite l_answers_snoc. cbn [l_step snd]. now rewrite <- !app_assoc.
  - eexists. split; [apply inits_of; [exact C5|lia]|]. rewrite R5, R4, R3. rewrite !flat_map_app, !count_occ_app. cbn [flat_map]. rewrite !app_nil_r.
    pose proof (count_in _ _ (w_kid h5 (S n) n [n] C5 M5' (or_introl eq_refl))). pose proof (count_in _ _ (w_kid h5 (S (S n)) n [n] C5 M5 (or_introl eq_refl))). lia.
Qed.
(** After every history: a node that is registered is accepted as part of a group as well. *)
Theorem C104_both_refuted : forall h r, cpp h -> let n := length h in
  let h' := h ++ [LRegNew; LGroup r [n]; LRegType (S n)] in
  l_answers h' = l_answers h ++ [LOk; LOk; LOk] /\
  exists inits, init_calls (length h') (l_after h') = Some inits /\ 2 <= count_occ Nat.eq_dec inits n.
Proof.
  intros h r C n h'.
  set (h1 := h ++ [LRegNew]). assert (C1 : cpp h1) by (apply cpp_one; [exact C|exact I]). assert (L1 : length h1 = S n) by (unfold h1; rewrite app_length; cbn; lia).
  assert (N1 : In n (l_all (l_after h1))) by (apply all_last; auto).
  assert (R1 : roots_of h1 = roots_of h ++ [n]) by (unfold h1; rewrite roots_more, accept_new by exact C; reflexivity).
  set (h2 := h1 ++ [LGroup r [n]]). assert (C2 : cpp h2) by (apply cpp_one; [exact C1|exact I]). assert (L2 : length h2 = S (S n)) by (unfold h2; rewrite app_length; cbn; lia).
  assert (M2 : made_of h2 (S n) [n]) by (rewrite <- L1; apply made_last; [exact C1|]; intros e [<-|[]]; exact N1).
  assert (R2 : roots_of h2 = roots_of h ++ [n]) by (unfold h2; rewrite roots_more, R1; cbn [registers]; destruct (snd _); cbn; now rewrite ?app_nil_r).
  destruct (reg_last h2 (S n) r [n]) as [A3 R3]; [exact C2|exact M2| | |].
  { unfold h2. rewrite nth_error_app2 by lia. rewrite L1, Nat.sub_diag. reflexivity. }
  { intros x X. rewrite R2 in X. apply in_app_iff in X. destruct X as [X|[<-|[]]]; [apply roots_lt in X; [unfold n; lia|exact C]|lia]. }
  set (h3 := h2 ++ [LRegType (S n)]) in *. assert (C3 : cpp h3) by (apply cpp_one; [exact C2|exact I]). assert (M3 : made_of h3 (S n) [n]) by now apply made_more.
  assert (E : h' = h3) by (unfold h', h3, h2, h1; now rewrite <- !app_assoc). rewrite E. split.
  - unfold h3. rewrite l_answers_snoc, A3. unfold h2. rewrite l_answers_snoc, accept_group; [|exact C1|intros e [<-|[]]; exact N1]. unfold h1. rewrite l_answers_snoc, accept_new by exact C. now rewrite <- !app_assoc.
  - eexists. split; [apply inits_of; [exact C3|lia]|]. rewrite R3, R2. rewrite !flat_map_app, !count_occ_app. cbn [flat_map]. rewrite !app_nil_r.
    pose proof (count_in _ _ (w_self h3 n C3)). pose proof (count_in _ _ (w_kid h3 (S n) n [n] C3 M3 (or_introl eq_refl))). lia.
Qed.
(** After every history: a group inside of another one is accepted by registerGElement as an element of its own. *)
Theorem C104_nested_refuted : forall h r1 r2, cpp h -> let n := length h in
  let h' := h ++ [LGroup r1 []; LGroup r2 [n]; LRegType n; LRegType (S n)] in
  l_answers h' = l_answers h ++ [LOk; LOk; LOk; LOk] /\
  exists inits, init_calls (length h') (l_after h') = Some inits /\ 2 <= count_occ Nat.eq_dec inits n.
Proof.
  intros h r1 r2 C n h'.
  set (h1 := h ++ [LGroup r1 []]). assert (C1 : cpp h1) by (apply cpp_one; [exact C|exact I]). assert (L1 : length h1 = S n) by (unfold h1; rewrite app_length; cbn; lia).
  assert (N1 : In n (l_all (l_after h1))) by (apply all_last; [exact C|]; right; right; now exists r1).
  assert (M1 : made_of h1 n []) by (apply made_last; [exact C|]; intros e []).
  set (h2 := h1 ++ [LGroup r2 [n]]). assert (C2 : cpp h2) by (apply cpp_one; [exact C1|exact I]). assert (L2 : length h2 = S (S n)) by (unfold h2; rewrite app_length; cbn; lia).
  assert (M2 : made_of h2 (S n) [n]) by (rewrite <- L1; apply made_last; [exact C1|]; intros e [<-|[]]; exact N1). assert (M2' : made_of h2 n []) by now apply made_more.
  assert (R2 : roots_of h2 = roots_of h) by (unfold h2, h1; rewrite !roots_more; cbn [registers]; destruct (snd _); destruct (snd _); cbn; now rewrite ?app_nil_r).
  destruct (reg_last h2 n r1 []) as [A3 R3]; [exact C2|exact M2'| | |].
  { unfold h2, h1. rewrite <- app_assoc, nth_error_app2 by (unfold n; lia). unfold n. rewrite Nat.sub_diag. reflexivity. }
  { intros x X. rewrite R2 in X. apply roots_lt in X; [unfold n; lia|exact C]. }
  set (h3 := h2 ++ [LRegType n]) in *. assert (C3 : cpp h3) by (apply cpp_one; [exact C2|exact I]). assert (M3 : made_of h3 (S n) [n]) by now apply made_more.
  destruct (reg_last h3 (S n) r2 [n]) as [A4 R4]; [exact C3|exact M3| | |].
  { unfold h3, h2. rewrite <- app_assoc, nth_error_app2 by lia. rewrite L1, Nat.sub_diag. reflexivity. }
  { intros x X. rewrite R3, R2 in X. apply in_app_iff in X. destruct X as [X|[<-|[]]]; [apply roots_lt in X; [unfold n; lia|exact C]|lia]. }
  set (h4 := h3 ++ [LRegType (S n)]) in *. assert (C4 : cpp h4) by (apply cpp_one; [exact C3|exact I]). assert (M4 : made_of h4 (S n) [n]) by now apply made_more.
  assert (E : h' = h4) by (unfold h', h4, h3, h2, h1; now rewrite <- !app_assoc). rewrite E. split.
  - unfold h4. rewrite l_answers_snoc, A4. unfold h3. rewrite l_answers_snoc, A3. unfold h2. rewrite l_answers_snoc, accept_group; [|exact C1|intros e [<-|[]]; exact N1].
    unfold h1. rewrite l_answers_snoc, accept_group; [|exact C|intros e []]. now rewrite <- !app_assoc.
  - eexists. split; [apply inits_of; [exact C4|lia]|]. rewrite R4, R3, R2. rewrite !flat_map_app, !count_occ_app. cbn [flat_map]. rewrite !app_nil_r.
    pose proof (count_in _ _ (w_self h4 n C4)). pose proof (count_in _ _ (w_kid h4 (S n) n [n] C4 M4 (or_introl eq_refl))). lia.
Qed.
(** After every history, from Python: a group accepts itself as a child. Then its path and its registration never end. *)
Theorem C104_cycle_refuted : forall h r, cpp h -> let n := length h in
  let h' := h ++ [LGroup r []; LAddPy n [n]] in
  l_answers h' = l_answers h ++ [LOk; LOk] /\ (forall fuel, deep_path fuel (l_belong (l_after h')) n = None) /\ l_answers (h' ++ [LRegPy n]) = l_answers h' ++ [LEndless].
Proof.
  intros h r C n h'.
  set (h1 := h ++ [LGroup r []]). assert (C1 : cpp h1) by (apply cpp_one; [exact C|exact I]). assert (L1 : length h1 = S n) by (unfold h1; rewrite app_length; cbn; lia).
  assert (M1 : made_of h1 n []) by (apply made_last; [exact C|]; intros e []).
  assert (E : h' = h1 ++ [LAddPy n [n]]) by (unfold h', h1; now rewrite <- app_assoc).
  pose proof (all_built h1 C1 n) as B. unfold built in B. destruct M1 as (r' & E1 & A1). rewrite E1, A1 in B. destruct B as (K & G & _ & IN).
  assert (MG : l_mgr (l_after h1) n = false).
  { destruct (l_mgr (l_after h1) n) eqn:M; [|reflexivity]. apply (mgr_old h1 C1) in M. destruct M as (x & X & LE). rewrite roots_built in X by exact C1.
    unfold h1 in X. rewrite roots_more in X. cbn [registers] in X. destruct (snd _) in X; cbn in X; rewrite app_nil_r in X; apply roots_lt in X; try exact C; unfold n in LE; lia. }
  assert (X : exist (l_after h1) [n; n] && l_group (l_after h1) n = true) by (rewrite G; cbn; rewrite (proj2 (memb_in n _) IN); reflexivity).
  assert (ST : exists s', l_step (length h1) (l_after h1) (LAddPy n [n]) = (s', LOk) /\ l_belong s' n = Some n /\ l_kids s' n = [n] /\ l_all s' = l_all (l_after h1)).
  { cbn [l_step]. rewrite X. destruct (add_all_spec (length h1) n [n] (l_after h1) MG) as (s' & -> & B1 & _ & _ & _ & _ & B6 & B7). exists s'. split; [reflexivity|]. split; [rewrite B7; cbn; now rewrite Nat.eqb_refl|]. split; [|exact B1].
    rewrite B6, Nat.eqb_refl, K. reflexivity. }
  destruct ST as (s' & ST & BE & KI & AL).
  assert (AF : l_after h' = s') by (rewrite E, l_after_snoc, ST; reflexivity).
  split; [|split].
  - rewrite E, l_answers_snoc, ST. unfold h1. rewrite l_answers_snoc, accept_group; [|exact C|intros e []]. now rewrite <- app_assoc.
  - rewrite AF. induction fuel as [|f IH]; [reflexivity|]. cbn. now rewrite BE, IH.
  - rewrite l_answers_snoc. f_equal. rewrite AF. cbn [l_step exist forallb]. rewrite AL, (proj2 (memb_in n _) IN). cbn [andb]. unfold l_inner, give_managers.
    assert (W : forall f, walk f (l_kids s') n = None) by (induction f as [|f IH]; [reflexivity|]; cbn; rewrite KI; cbn; now rewrite IH). now rewrite W.
Qed.

(** A region inside of a cluster, with two nodes and a refused second registration. *)
Definition tree_calls : list lop := [LNode; LNode; LGroup true [0; 1]; LNode; LGroup false [3; 2]; LRegType 4; LRegDirect 0; LRegNew; LRegType 4].
Example C104_nonvacuous : cpp tree_calls /\ once tree_calls /\ l_answers tree_calls = [LOk; LOk; LOk; LOk; LOk; LOk; LRefused; LOk; LRefused] /\
  init_calls 9 (l_after tree_calls) = Some [4; 3; 2; 0; 1; 7] /\ deep_path 9 (l_belong (l_after tree_calls)) 1 = Some [1; 2; 4].
Proof.
  split; [|split; [|split; [|split]]]; try (vm_compute; reflexivity).
  - intros o H. cbn in H. repeat (destruct H as [<-|H]; [exact I|]). destruct H.
  - unfold once. vm_compute. repeat (constructor; [cbn; intuition discriminate|]). constructor.
Qed.
Print Assumptions C104_tree_partial.
Print Assumptions C104_path_partial.
Print Assumptions C104_shared_refuted.
Print Assumptions C104_both_refuted.
Print Assumptions C104_nested_refuted.
Print Assumptions C104_cycle_refuted.
