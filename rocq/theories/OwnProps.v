(** Property theorems on ownership. *)
From Verif Require Import OwnSpec OwnProofs.
Local Open Scope nat_scope.
Local Open Scope list_scope.

(** * C88 *)
(** A tidy program never deletes anything twice and never uses anything deleted. *)
Theorem C88_safe_partial : forall cs, tidy o_new cs -> exists xs s, orun o_new cs = Some (xs, s).
Proof. intros cs T. destruct (tidy_run cs o_new own_new T) as [xs [s [E _]]]. eauto. Qed.
(** Every element that a call made or registered successfully is deleted exactly once when its pipeline is deleted, and not before;
    an element is deleted only together with its pipeline. *)
Theorem C88_once_partial : forall cs xs s, tidy o_new cs -> orun o_new cs = Some (xs, s) ->
  (forall p, p_deletions s p <= 1) /\
  (forall e p, made_by s e p -> In (OOk (Some e)) xs -> e_deletions s e = p_deletions s p) /\
  (forall e p, made_by s e p -> e_deletions s e <= p_deletions s p) /\
  (forall e, In (OOk (Some e)) xs -> exists p, made_by s e p).
Proof.
  intros cs xs s T H. destruct (tidy_run cs o_new own_new T) as [xs' [s' [E [W [_ A]]]]]. assert (X : (xs', s') = (xs, s)) by congruence. injection X as -> ->.
  unfold e_deletions, p_deletions. split; [intros p; rewrite (nd_count _ _ (w_pnd _ W)); destruct (memb _ _); lia|].
  assert (D : forall e p, made_by s e p -> In e (o_edead s) -> In p (o_pdead s)).
  { intros e p M I. apply (w_edead _ W) in I. destruct I as [q [Q R]]. rewrite (w_fun _ W _ _ _ M (w_repo _ W _ _ R)). exact Q. }
  split; [|split].
  - intros e p M I. rewrite (nd_count _ _ (w_end _ W)), (nd_count _ _ (w_pnd _ W)). destruct (A e I) as [q R]. rewrite <- (w_fun _ W _ _ _ M (w_repo _ W _ _ R)) in R.
    destruct (memb e (o_edead s)) eqn:E1; destruct (memb p (o_pdead s)) eqn:E2; try reflexivity; exfalso.
    + apply memb_in in E1. apply memb_false in E2. eauto.
    + apply memb_false in E1. apply memb_in in E2. apply E1, (w_edead _ W). eauto.
  - intros e p M. rewrite (nd_count _ _ (w_end _ W)), (nd_count _ _ (w_pnd _ W)). destruct (memb e (o_edead s)) eqn:E1; [|lia]. apply memb_in in E1. pose proof (D _ _ M E1) as Q. apply memb_in in Q. rewrite Q. lia.
  - intros e I. destruct (A e I) as [p R]. exists p. apply (w_repo _ W), R.
Qed.
(** After a tidy program GPipelineFactory::clear deletes what is left: every pipeline, and every element that a call made or registered
    successfully, has then been deleted exactly once. *)
Theorem C88_clear_partial : forall cs, tidy o_new cs -> exists xs s, orun o_new (cs ++ [OClear]) = Some (xs, s) /\
  (forall p, p < o_np s -> p_deletions s p = 1) /\ (forall e, In (OOk (Some e)) xs -> e_deletions s e = 1).
Proof.
  intros cs T. destruct (tidy_run cs o_new own_new T) as [xs [s [E [W [_ A]]]]].
  assert (TC : tidy_call s OClear) by (split; [intros p [X|X]; discriminate|intros p e X; discriminate]).
  destruct (tidy_step s OClear W TC) as [x [s' [E' [W' [G' _]]]]].
  exists (xs ++ [x]), s'. split; [rewrite orun_app, E; cbn [orun]; rewrite E'; reflexivity|].
  assert (P : forall p, p < o_np s' -> In p (o_pdead s')).
  { intros p L. unfold ostep in E'. cbn [pipe_ok on_pipe negb names forallb] in E'. destruct (del_pipes s (o_list s)) as [s1|] eqn:D; [|discriminate]. injection E' as _ <-. destruct (del_frame _ _ _ D) as [_ [B [_ [_ [F1 F2]]]]]. cbn in L |- *. rewrite B in L.
    destruct (in_dec Nat.eq_dec p (o_pdead s)) as [I|I]; [auto|]. apply F2, (w_list _ W). auto. }
  unfold p_deletions, e_deletions. split.
  - intros p L. rewrite (nd_count _ _ (w_pnd _ W')). apply P, memb_in in L. now rewrite L.
  - intros e I. apply in_app_or in I. assert (X : exists p, In e (o_repo s' p)).
    { destruct I as [I|[I|[]]]; [destruct (A e I) as [p R]; exists p; apply G', R|]. unfold ostep in E'. cbn [pipe_ok on_pipe negb names forallb] in E'. destruct (del_pipes _ _); [|discriminate]. injection E' as E' _. congruence. }
    destruct X as [p R]. rewrite (nd_count _ _ (w_end _ W')). assert (Y : In e (o_edead s')); [|apply memb_in in Y; now rewrite Y]. apply (w_edead _ W'). exists p. split; [|exact R]. apply P. apply (w_repo _ W'), (w_lt _ W') in R. apply R.
Qed.
(** Whatever was given, at some depth, as an element of a registered group is owned from the next init on, even if its own creation was refused. *)
Theorem C88_nested_partial : forall cs xs s p w ds zs t c g e, tidy o_new (cs ++ OInit p w :: ds) -> orun o_new cs = Some (xs, s) -> o_pinit s p = false ->
  orun o_new (cs ++ OInit p w :: ds) = Some (zs, t) -> accepted cs xs c g -> registers c = true -> on_pipe c = Some p -> inside cs xs g e -> e_deletions t e = p_deletions t p.
Proof.
  intros cs xs s p w ds zs t c g e T H P Z A R O I. destruct (tidy_app _ _ _ _ _ T H) as [T1 [T2 T3]]. destruct (tidy_run cs o_new own_new T1) as [xs' [s' [E [W _]]]]. assert (X : (xs', s') = (xs, s)) by congruence. injection X as -> ->.
  destruct (tidy_step s _ W T2) as [x [s1 [E1 [W1 [G1 _]]]]]. specialize (T3 _ _ E1). destruct (tidy_run ds s1 W1 T3) as [ys [t' [E2 [W2 [G2 _]]]]].
  rewrite orun_app, H in Z. cbn [orun] in Z. rewrite E1, E2 in Z. injection Z as _ ->.
  assert (IR : In e (o_repo s1 p)).
  { pose proof (inside_nested _ _ _ _ _ W H I) as N. destruct (run_keep _ _ _ _ H) as [_ [_ [_ D]]]. pose proof (D c p g A R O) as M.
    unfold ostep in E1. destruct (negb (pipe_ok s _)); [discriminate|]. destruct (negb _); [discriminate|]. rewrite P in E1. cbn zeta in E1. destruct (negb _); [discriminate|].
    assert (F : In e (o_repo (fetch_all s p) p)) by (unfold fetch_all; cbn [set_repo o_repo]; rewrite upd_same; apply in_fold_ins; right; apply in_flat_map; eauto).
    destruct w; injection E1 as _ <-; exact F. }
  apply G2 in IR. unfold e_deletions, p_deletions. rewrite (nd_count _ _ (w_end _ W2)), (nd_count _ _ (w_pnd _ W2)).
  assert (Q : In e (o_edead t) <-> In p (o_pdead t)).
  { rewrite (w_edead _ W2). split; [intros [q [Q1 Q2]]; rewrite (w_fun _ W2 _ _ _ (w_repo _ W2 _ _ IR) (w_repo _ W2 _ _ Q2)); exact Q1|eauto]. }
  destruct (memb e (o_edead t)) eqn:E3; destruct (memb p (o_pdead t)) eqn:E4; try reflexivity; exfalso; rewrite <- !memb_in in Q; rewrite E3, E4 in Q; destruct Q as [Q1 Q2]; [specialize (Q1 eq_refl)|specialize (Q2 eq_refl)]; discriminate.
Qed.
(** Its hypotheses: the node 2 is refused by registerGElement, put into a group all the same, and adopted. *)
Definition own_example2 : list ocall := [OCreate; OMkNode 0 []; OMkGroup 0 [Some 0] []; ORegNew 0 KNode [Some 0]; OMkGroup 0 [Some 2; Some 1] []; ORegGroup 0 (Some 3) true []].
Example C88_nested_nonvacuous : tidy o_new (own_example2 ++ OInit 0 None :: [OFini 0 None; ORemove (Some 0)]) /\
  exists xs s, orun o_new own_example2 = Some (xs, s) /\ xs = [OOk None; OOk (Some 0); OOk (Some 1); OErr; OOk (Some 3); OOk (Some 3)] /\ o_pinit s 0 = false /\
  accepted own_example2 xs (ORegGroup 0 (Some 3) true []) 3 /\ inside own_example2 xs 3 2 /\ inside own_example2 xs 3 0 /\
  exists zs t, orun o_new (own_example2 ++ OInit 0 None :: [OFini 0 None; ORemove (Some 0)]) = Some (zs, t) /\ o_edead t = [2; 3; 1; 0].
Proof.
  split; [apply tidyb_ok; vm_compute; reflexivity|]. eexists _, _. split; [vm_compute; reflexivity|]. split; [reflexivity|]. split; [reflexivity|]. split; [cbn; tauto|].
  split; [|split; [|eexists _, _; split; [vm_compute; reflexivity|reflexivity]]].
  - apply (in_kid _ _ _ 0 [Some 2; Some 1] [] 3); [constructor| |now left]. cbn. tauto.
  - apply (in_kid _ _ _ 0 [Some 0] [] 1); [|cbn; tauto|now left]. apply (in_kid _ _ _ 0 [Some 2; Some 1] [] 3); [constructor| |cbn; tauto]. cbn. tauto.
Qed.
(** A tidy program with two pipelines, a group, dependencies, init, run, destroy, a refused call, and one removal. *)
Definition own_example : list ocall :=
  [OCreate; OCreate; OMkNode 0 []; OMkNode 0 [Some 0]; OMkGroup 0 [Some 0; Some 1] []; ORegNew 1 KNode []; ORegGroup 0 (Some 2) true []; ORegNew 0 KAdapter [Some 2]; ORegOld 0 KNode (Some 1) [];
   OInit 0 None; ORun 0; OFini 0 None; ORemove (Some 0); OInit 1 None; ORun 1].
Example C88_nonvacuous : tidy o_new own_example /\ exists s, orun o_new own_example = Some ([OOk None; OOk None; OOk (Some 0); OOk (Some 1); OOk (Some 2); OOk (Some 3); OOk (Some 2); OOk (Some 4); OErr; OOk None; OOk None; OOk None; OOk None; OOk None; OOk None], s)
  /\ o_edead s = [4; 2; 1; 0] /\ o_pdead s = [0].
Proof. split; [apply tidyb_ok; vm_compute; reflexivity|]. eexists. split; [vm_compute; reflexivity|]. split; reflexivity. Qed.

(** A group with a null pointer among its children or dependences is refused, and nothing is made or changed. *)
Theorem C88_null_partial : forall s p kids deps x s', In None (kids ++ deps) -> ostep s (OMkGroup p kids deps) = ORet x s' -> x = OThrow /\ s' = s.
Proof.
  intros s p kids deps x s' N E. unfold ostep in E. destruct (negb _); [discriminate|]. destruct (negb _); [discriminate|]. unfold ret, mk_group in E.
  replace (has_null kids || has_null deps) with true in E.
  - destruct (o_pinit s p); injection E as <- <-; now split.
  - symmetry. unfold has_null. rewrite <- existsb_app. apply existsb_exists. now exists None.
Qed.
Print Assumptions C88_null_partial.
(** An element that two pipelines accepted, made by createGNode of one and registered by registerGNode of the other: deleting both pipelines deletes it twice. *)
Theorem C88_shared_refuted :
  (forall cs xs s p q c d e, orun o_new cs = Some (xs, s) -> In (c, OOk (Some e)) (combine cs xs) -> on_pipe c = Some p -> In (d, OOk (Some e)) (combine cs xs) -> on_pipe d = Some q -> p <> q ->
     orun o_new (cs ++ [ORemove (Some p); ORemove (Some q)]) = None) /\
  (exists s, orun o_new [OCreate; OCreate; OMkNode 0 []; ORegOld 1 KNode (Some 0) []] = Some ([OOk None; OOk None; OOk (Some 0); OOk (Some 0)], s)).
Proof.
  split.
  - intros cs xs s p q c d e H I O J U N. rewrite orun_app, H. destruct (run_repo _ _ _ _ H) as [_ [_ R]]. pose proof (R c p e I O) as R1. pose proof (R d q e J U) as R2. cbn [orun].
    unfold ostep at 1. cbn [pipe_ok on_pipe negb names forallb]. destruct (del_pipe _ p) as [s1|] eqn:E; [|reflexivity]. apply del_pipe_inv in E. destruct E as [-> _].
    unfold ostep. cbn [pipe_ok on_pipe negb names forallb]. destruct (del_pipe _ q) as [s2|] eqn:E; [|reflexivity]. exfalso. apply del_pipe_inv in E. destruct E as [_ [_ E]]. apply (E e); cbn.
    + exact R2.
    + apply in_or_app. left. apply in_rev in R1. exact R1.
  - eexists. vm_compute. reflexivity.
Qed.
(** Removing a pipeline again, or after clear, deletes it a second time, whatever the program did. *)
Theorem C88_remove_refuted :
  (forall cs xs s p, orun o_new cs = Some (xs, s) -> p_deletions s p = 1 -> ostep s (ORemove (Some p)) = OBad) /\
  (exists xs s, orun o_new [OCreate; ORemove (Some 0)] = Some (xs, s) /\ p_deletions s 0 = 1) /\
  (exists xs s, orun o_new [OCreate; OClear] = Some (xs, s) /\ p_deletions s 0 = 1).
Proof.
  split; [|split; eexists _, _; (split; [vm_compute; reflexivity|]); reflexivity]. intros cs xs s p _ D. unfold ostep. cbn [pipe_ok on_pipe negb names forallb]. unfold del_pipe, p_alive. cbn [set_list o_np o_pdead].
  assert (M : memb p (o_pdead s) = true) by (apply memb_in, (count_occ_In Nat.eq_dec); unfold p_deletions in D; lia). rewrite M. now rewrite andb_false_r.
Qed.
(** An element allocated by a call that then fails is never deleted by any program that does not name it again, and createGNode and createGGroup
    do not return it. *)
Theorem C88_leak_refuted :
  (forall cs xs s c x s', orun o_new cs = Some (xs, s) -> ostep s c = ORet x s' -> o_ne s' = S (o_ne s) -> (forall e, x <> OOk (Some e)) ->
     forall ds ys s'', (forall d, In d ds -> ~ In (o_ne s) (names d)) -> orun s' ds = Some (ys, s'') -> e_deletions s'' (o_ne s) = 0) /\
  (exists xs s s', orun o_new [OCreate; OMkNode 0 []; OMkGroup 0 [Some 0] []] = Some (xs, s) /\ ostep s (OMkNode 0 [Some 0]) = ORet OThrow s' /\ o_ne s = 2 /\ o_ne s' = 3 /\
     exists ys s'', orun s' [ORemove (Some 0)] = Some (ys, s'') /\ o_edead s'' = [1; 0]) /\
  (exists xs s s', orun o_new [OCreate; OMkNode 0 []] = Some (xs, s) /\ ostep s (OMkGroup 0 [Some 0] [Some 0]) = ORet OThrow s' /\ o_ne s' = S (o_ne s)).
Proof.
  split; [|split].
  - intros cs xs s c x s' H E L X ds ys s'' N H'. pose proof (fresh_run _ _ _ _ fresh_new H) as F.
    assert (A : absent s' (o_ne s)) by (apply (absent_step _ _ _ _ _ E); [apply F; lia|intros I; apply (step_ne _ _ _ _ E) in I; lia|apply X]).
    apply count_occ_not_In. apply (b_dead _ _ (absent_run ds s' (o_ne s) ys s'' A ltac:(lia) N H')).
  - eexists _, _, _. split; [vm_compute; reflexivity|]. split; [vm_compute; reflexivity|]. split; [reflexivity|]. split; [reflexivity|]. eexists _, _. split; [vm_compute; reflexivity|]. reflexivity.
  - eexists _, _, _. split; [vm_compute; reflexivity|]. split; [vm_compute; reflexivity|]. reflexivity.
Qed.
(** Dependencies may join elements of two pipelines; when one of them is removed, running the other one uses deleted elements. *)
Theorem C88_dangling_refuted : exists cs xs s, orun o_new cs = Some (xs, s) /\ ~ In OErr xs /\ ~ In OThrow xs /\
  p_deletions s 0 = 0 /\ p_deletions s 1 = 1 /\ on_pipe (ORun 0) = Some 0 /\ ostep s (ORun 0) = OBad.
Proof.
  exists [OCreate; OCreate; ORegNew 0 KNode []; ORegNew 1 KNode [Some 0]; OInit 0 None; ORun 0; ORemove (Some 1)]. eexists _, _. split; [vm_compute; reflexivity|].
  split; [cbn; intuition discriminate|]. split; [cbn; intuition discriminate|]. split; [reflexivity|]. split; [reflexivity|]. split; reflexivity.
Qed.
Print Assumptions C88_safe_partial.
Print Assumptions C88_once_partial.
Print Assumptions C88_clear_partial.
Print Assumptions C88_nested_partial.
Print Assumptions C88_shared_refuted.
Print Assumptions C88_remove_refuted.
Print Assumptions C88_leak_refuted.
Print Assumptions C88_dangling_refuted.
(** Registrations that are refused before anything is done answer with an error and change nothing: an initialised pipeline, a group given as a node or the other way round, a null pointer given to registerGNode or
    registerGGroup, an element that is inside a group, an element that has a parameter manager already. *)
Definition not_taken (s : ost) (c : ocall) : Prop :=
  match c with
  | ORegNew p k _ => o_pinit s p = true \/ k = KGroup
  | ORegGroup p (Some e) same _ => o_pinit s p = true \/ o_reg s e = true \/ same = false \/ o_kind s e <> KGroup
  | ORegGroup p None _ _ => o_pinit s p = true
  | ORegOld p k None _ => True
  | ORegOld p k (Some e) _ => o_pinit s p = true \/ o_kind s e <> k \/ e_belong (o_g s e) <> None \/ o_reg s e = true
  | _ => False
  end.
Theorem C88_refused_partial : forall s c x s', not_taken s c -> ostep s c = ORet x s' -> x = OErr /\ s' = s.
Proof.
  intros s c x s' N E. unfold ostep in E. destruct (negb (pipe_ok s c)); [discriminate|]. destruct (negb (forallb _ _)); [discriminate|].
  assert (KE : forall a b, okind_eqb a b = true -> a = b) by (intros [] []; easy).
  destruct c; cbn [not_taken] in N; try easy; cbn beta iota in E; unfold ret in E.
  - unfold reg_new in E. destruct (o_pinit s p); [injection E as <- <-; auto|]. destruct N as [N| ->]; [discriminate|]. injection E as <- <-. auto.
  - unfold reg_group in E. destruct (o_pinit s p); [destruct e; injection E as <- <-; auto|]. destruct e as [e|]; [|discriminate]. destruct (o_reg s e); [injection E as <- <-; auto|].
    replace (negb (same && okind_eqb (o_kind s e) KGroup)) with true in E; [injection E as <- <-; auto|].
    destruct same; [|reflexivity]. destruct (okind_eqb (o_kind s e) KGroup) eqn:K; [|reflexivity]. apply KE in K. exfalso. intuition discriminate.
  - unfold reg_old in E. destruct (o_pinit s p); [destruct e; injection E as <- <-; auto|]. destruct e as [e|]; [|injection E as <- <-; auto].
    destruct (okind_eqb (o_kind s e) k) eqn:K; cbn [negb] in E; [|injection E as <- <-; auto]. apply KE in K. destruct (e_belong (o_g s e)) eqn:B; [injection E as <- <-; auto|].
    destruct (o_reg s e); [injection E as <- <-; auto|]. exfalso. intuition congruence.
Qed.
Print Assumptions C88_refused_partial.
Example C88_refused_case : exists xs s, orun o_new [OCreate; OMkNode 0 []; OMkNode 0 []; OMkGroup 0 [Some 0; Some 1] []; ORegOld 0 KNode (Some 1) []; ORegOld 0 KNode (Some 2) []; ORegNew 0 KGroup []] = Some (xs, s) /\
  skipn 4 xs = [OErr; OErr; OErr] /\ o_ne s = 3.
Proof. eexists _, _. split; [vm_compute; reflexivity|]. split; reflexivity. Qed.
