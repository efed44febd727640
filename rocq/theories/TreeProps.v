(** C116: order, completeness and errors in trees of groups, at every depth. *)
From Verif Require Import ListUtil GraphModel GraphSpec TopoProofs StaticModel StatusProofs DynModel DynProofs GraphProps DynProps WholeModel.
From Verif Require Import TreeModel TreeSpec TreeProofs.
From Coq Require Import List Arith Lia ZArith.
Import ListNotations.
Local Open Scope nat_scope.

(** If child [a] of group [r] comes before child [b] (by dependencies or by its place in a sequence), then whatever starts anywhere in [b] starts after [a] has ended without error in the current execution of [r], and at a moment when nothing anywhere in [a] is executing. *)
Theorem C116_order : forall T s r a b y L1 L2, tree_ok T -> reach T s -> In a (t_kids T r) -> In b (t_kids T r) -> precedes T r a b -> inside T b y -> s_log s = L1 ++ GStart y :: L2 ->
  exists q st, since r L1 q /\ In (GFinish a st) q /\ (0 <= code st)%Z /\ forall x, inside T a x -> idle L1 x.
Proof. intros T s r a b y L1 L2 TO R. now apply tree_order with (b := b) (s := s) (L2 := L2). Qed.
Print Assumptions C116_order.
(** An element starts only while every group around it is executing, unless that group has failed. *)
Theorem C116_inside : forall T s e x L1 L2, tree_ok T -> reach T s -> inside T e x -> x <> e -> s_log s = L1 ++ GStart x :: L2 -> running L1 e \/ exists v, (code v < 0)%Z /\ In (GFinish e v) L1.
Proof. intros T s e x L1 L2 TO R. now apply tree_inside with (s := s) (L2 := L2). Qed.
Print Assumptions C116_inside.
(** No element is executed twice at the same time, and an element starts (the first time or again) only when nothing in it is still executing. *)
Theorem C116_no_overlap : forall T s, tree_ok T -> reach T s ->
  (forall e, idle (s_log s) e \/ running (s_log s) e) /\ (forall e x L1 L2, inside T e x -> s_log s = L1 ++ GStart e :: L2 -> idle L1 x).
Proof.
  intros T s TO R. pose proof (reach_inv T TO s R) as I. split.
  - intros e. destruct (Nat.eq_dec (s_busy s e) 0) as [Z|Z]; [left; now apply (idle_busy T s e I)|right; apply (running_busy T s e I)]. pose proof (busy_le T s e I). lia.
  - intros e x L1 L2. now apply tree_rest with (s := s).
Qed.
Print Assumptions C116_no_overlap.
(** When the execution of an element ends without error, then since it started its children were executed completely (a region: all; a sequence: in order), nothing in it at any depth has failed, and nothing in it is still executing. *)
Theorem C116_success : forall T s e st L1 L2, tree_ok T -> reach T s -> s_log s = L1 ++ GFinish e st :: L2 -> (0 <= code st)%Z ->
  exists q, since e L1 q /\ complete (t_kind T e) (of_kids T e q) /\ forall x, inside T e x -> x <> e -> idle L1 x /\ forall v, In (GFinish x v) q -> (0 <= code v)%Z.
Proof. intros T s e st L1 L2 TO R. now apply tree_success with (s := s) (L2 := L2). Qed.
Print Assumptions C116_success.
(** An error anywhere inside reaches every group around it whose execution it belongs to: these end with an error. *)
Theorem C116_reported : forall T s e st x v L1 L2 q, tree_ok T -> reach T s -> s_log s = L1 ++ GFinish e st :: L2 -> since e L1 q -> inside T e x -> In (GFinish x v) q -> (code v < 0)%Z -> x <> e -> (code st < 0)%Z.
Proof.
  intros T s e st x v L1 L2 q TO R E S J X V N. destruct (Z_lt_le_dec (code st) 0) as [H|H]; [exact H|]. destruct (C116_success T s e st L1 L2 TO R E H) as (q' & S' & _ & A). assert (q' = q).
  { destruct S as (p & Ep & F), S' as (p' & Ep' & F'). rewrite Ep in Ep'. clear -Ep' F F'. revert p' Ep'. induction p as [|h p IH]; intros [|k p'] Q; cbn in Q.
    - now injection Q as Q.
    - injection Q as Q1 Q2. exfalso. apply F. rewrite Q2. apply in_or_app. right. now left.
    - injection Q as Q1 Q2. exfalso. apply F'. rewrite <- Q2. apply in_or_app. right. now left.
    - injection Q as Q1 Q2. now apply (IH p'). }
  subst q'. destruct (A x J N) as [_ G]. apply G in X. lia.
Qed.
Print Assumptions C116_reported.
(** The code with which a failing element ends comes from user code: from a node (or from a group's own code, its aspects for example) inside of it, that failed with this code during this execution. *)
Theorem C116_source : forall T s e r L1 L2, tree_ok T -> reach T s -> s_log s = L1 ++ GFinish e r :: L2 -> (code r < 0)%Z ->
  exists q z v, since e L1 q /\ inside T e z /\ In (GFinish z v) (q ++ [GFinish e r]) /\ code v = code r /\ source T z.
Proof. intros T s e r L1 L2 TO R. apply (tree_source T TO (S (length L1))); [lia|exact R]. Qed.
Print Assumptions C116_source.

(** * Concrete trees *)
Lemma go_run T s : reach T s -> s_on s (t_root T) = false -> reach T (begins (t_root T) s).
Proof. intros R H. apply (re_step T s); [exact R|]. apply ts_run. now left. Qed.
Lemma go_again T s v : reach T s -> s_busy s (t_root T) = 0 -> s_res s (t_root T) = Some (EReturn v) -> (0 <= code v)%Z -> reach T (begins (t_root T) s).
Proof. intros R H Hr V. apply (re_step T s); [exact R|]. apply ts_run. right. split; [exact H|]. now exists v. Qed.
Lemma go_start T e s : reach T s -> e <> t_root T -> s_on s (t_par T e) = true -> group_at (t_kind T (t_par T e)) (s_did s (t_par T e) ++ [GStart e]) (s_res s (t_par T e)) -> reach T (notes (t_par T e) (GStart e) (begins e s)).
Proof. intros R N O G. apply (re_step T s); [exact R|]. now apply ts_start. Qed.
Lemma go_end T e r s : reach T s -> e <> t_root T -> 0 < s_busy s e -> outcome T s e r -> group_at (t_kind T (t_par T e)) (s_did s (t_par T e) ++ [GFinish e r]) (s_res s (t_par T e)) -> reach T (notes (t_par T e) (GFinish e r) (ends e r s)).
Proof. intros R N B O G. apply (re_step T s); [exact R|]. now apply ts_end. Qed.
Lemma go_return T p res s : reach T s -> 0 < s_busy s p -> s_res s p = None -> group_at (t_kind T p) (s_did s p) (Some res) -> reach T (returns p res s).
Proof. intros R B N G. apply (re_step T s); [exact R|]. now apply ts_return. Qed.
Lemma go_over T r s : reach T s -> 0 < s_busy s (t_root T) -> outcome T s (t_root T) r -> reach T (ends (t_root T) r s).
Proof. intros R B O. apply (re_step T s); [exact R|]. now apply ts_over. Qed.

(** The pipeline 20 (topo engine): region 10 before 11. In region 10 (dynamic engine): 1 before 2; 0 is independent. 11 executes node 5 twice. *)
Definition top_g : graph := graph_of (dep_run blank [OAdd 11 [Some 10]]) [10; 11].
Lemma top_wf : wf top_g.
Proof.
  apply C03_reachable_graphs_wf; [intros e; split; reflexivity|repeat constructor; simpl; intuition discriminate|].
  intros e He. simpl in He. intuition subst; vm_compute; intros x Hx; intuition.
Qed.
Definition ex_t : tree := mkTree 20
  (fun e => match e with 20 => [10; 11] | 10 => [0; 1; 2] | 11 => [5] | _ => [] end)
  (fun e => match e with 10 | 11 => 20 | 0 | 1 | 2 => 10 | _ => 11 end)
  (fun e => match e with 20 => TEng top_g ETopo | 10 => TEng strag_g (EDynamic (fun _ => (-1)%Z)) | 11 => TSeq (fun l => l = [5; 5]) | _ => TNode end)
  (fun _ => False).
Lemma ex_kids g c : In c (t_kids ex_t g) -> (g = 20 /\ (c = 10 \/ c = 11)) \/ (g = 10 /\ (c = 0 \/ c = 1 \/ c = 2)) \/ (g = 11 /\ c = 5).
Proof. intros H. do 21 (destruct g as [|g]; [cbn in H; intuition|]). contradiction. Qed.
Lemma ex_ok : tree_ok ex_t.
Proof.
  split.
  - intros g c H. apply ex_kids in H. intuition subst; try reflexivity; discriminate.
  - exists (fun e => match e with 20 => 0 | 10 | 11 => 1 | _ => 2 end). intros g c H. apply ex_kids in H. intuition subst; cbn; lia.
  - intros e. destruct (Nat.eq_dec e 20) as [->|N1]; [|destruct (Nat.eq_dec e 10) as [->|N2]; [|destruct (Nat.eq_dec e 11) as [->|N3]]].
    + split; [exact top_wf|]. split; [apply acyclic_by_check; [exact top_wf|vm_compute; reflexivity]|reflexivity].
    + split; [exact strag_wf|]. split; [apply acyclic_by_check; [exact strag_wf|vm_compute; reflexivity]|reflexivity].
    + intros l ->. intros x [<-|[<-|[]]]; now left.
    + do 21 (destruct e as [|e]; [first [reflexivity|lia]|]). reflexivity.
  - split; [discriminate|intros []].
Qed.
Definition ok_ls : list dlabel := LRun :: [M; M; M; M; LPick 0; W] ++ repeat M 15 ++ [W; W; W; W; M; M; M].
Definition bad_ls : list dlabel := LRun :: [M; M; M; M; M; M; LMain boom; M; M; M; M; M; M; M; M] ++ [LPick 0; W; W; W].
Lemma strag_eng ls n tr o : ~ In LRun (firstn n ls) -> match drun strag_c (d_init strag_c) (LRun :: firstn n ls) with Some s => trace s = tr /\ option_map EReturn (d_out s) = o | None => False end ->
  eng_at strag_g (EDynamic (fun _ => (-1)%Z)) tr o.
Proof.
  intros N H. destruct (drun strag_c (d_init strag_c) (LRun :: firstn n ls)) as [s|] eqn:E; [|contradiction]. destruct H as [<- <-]. apply (ea_common strag_g strag_c (LRun :: firstn n ls) s); [vm_compute; reflexivity|reflexivity|]. split; [exact E|]. now apply disciplined_one_run with (s := s).
Qed.
Lemma top_eng res p q o : topo_run res [10; 11] st_default = (p ++ q, EReturn o) -> eng_at top_g ETopo p None.
Proof. intros H. apply (ea_topo top_g res [10; 11] (p ++ q) (EReturn o) p q); [vm_compute; reflexivity|exact H|reflexivity|now left]. Qed.
Lemma top_eng_end res p o : topo_run res [10; 11] st_default = (p, EReturn o) -> eng_at top_g ETopo p (Some (EReturn o)).
Proof. intros H. apply (ea_topo top_g res [10; 11] p (EReturn o) p []); [vm_compute; reflexivity|exact H|now rewrite app_nil_r|now right]. Qed.
Ltac inr := let H := fresh in vm_compute; intros H; repeat (destruct H as [H|H]; [discriminate H|]); exact H.
Ltac by_top res tr := match goal with |- group_at _ ?t _ => let t' := eval vm_compute in t in change t with t' end; match goal with |- group_at _ _ ?o => let o' := eval vm_compute in o in change o with o' end; match goal with |- group_at _ ?p (Some (EReturn ?v)) => exact (top_eng_end res p v eq_refl) | |- group_at _ ?p None => exact (top_eng res p (skipn (length p) (fst (topo_run res [10; 11] st_default))) tr eq_refl) end.
Ltac by_strag ls n := apply (strag_eng ls n); [inr|vm_compute; split; reflexivity].
Ltac st x t := match goal with R : reach _ _ |- _ => apply go_start with (e := x) in R; [|discriminate|reflexivity|t] end.
Ltac en x y o t := match goal with R : reach _ _ |- _ => apply go_end with (e := x) (r := y) in R; [|discriminate|vm_compute; lia|o|t] end.
Ltac rt x v t := match goal with R : reach _ _ |- _ => apply go_return with (p := x) (res := EReturn v) in R; [|vm_compute; lia|reflexivity|t] end.
Ltac result := left; eexists; split; reflexivity.
Definition fin (e : nat) : gevent := GFinish e st_default.
Definition fine (e : nat) : status := st_default.
(** A run without errors. *)
Definition ok_log : list gevent :=
  [GStart 20; GStart 10; GStart 0; GStart 1; fin 1; GStart 2; fin 2; fin 0; fin 10; GStart 11; GStart 5; fin 5; GStart 5; fin 5; fin 11; fin 20].
Lemma ex_run : exists s, reach ex_t s /\ s_log s = ok_log.
Proof.
  pose proof (re_new ex_t) as R. apply go_run in R; [|reflexivity].
  st 10 ltac:(by_top fine st_default). st 0 ltac:(by_strag (tl ok_ls) 6). st 1 ltac:(by_strag (tl ok_ls) 8). en 1 st_default ltac:(exact I) ltac:(by_strag (tl ok_ls) 9).
  st 2 ltac:(by_strag (tl ok_ls) 12). en 2 st_default ltac:(exact I) ltac:(by_strag (tl ok_ls) 13). en 0 st_default ltac:(exact I) ltac:(by_strag (tl ok_ls) 22). rt 10 st_default ltac:(by_strag (tl ok_ls) 28).
  en 10 st_default result ltac:(by_top fine st_default). st 11 ltac:(by_top fine st_default).
  st 5 ltac:(exists [5; 5]; split; [reflexivity|]; apply (sq_within [5; 5] [] 5 [5]); [reflexivity|intros ? []]).
  en 5 st_default ltac:(exact I) ltac:(exists [5; 5]; split; [reflexivity|]; apply (sq_between [5; 5] [(5, st_default)] [5]); [reflexivity|intros ? [<-|[]]; vm_compute; discriminate]).
  st 5 ltac:(exists [5; 5]; split; [reflexivity|]; apply (sq_within [5; 5] [(5, st_default)] 5 []); [reflexivity|intros ? [<-|[]]; vm_compute; discriminate]).
  en 5 st_default ltac:(exact I) ltac:(exists [5; 5]; split; [reflexivity|]; apply (sq_between [5; 5] [(5, st_default); (5, st_default)] []); [reflexivity|intros ? [<-|[<-|[]]]; vm_compute; discriminate]).
  rt 11 st_default ltac:(exists [5; 5]; split; [reflexivity|]; apply (sq_end [5; 5] [(5, st_default); (5, st_default)]); [reflexivity|intros ? [<-|[<-|[]]]; vm_compute; discriminate|vm_compute; discriminate]).
  en 11 st_default result ltac:(by_top fine st_default). rt 20 st_default ltac:(by_top fine st_default).
  apply go_over with (r := st_default) in R; [|vm_compute; lia|result]. eexists. split; [exact R|]. vm_compute. reflexivity.
Qed.
(** A run that fails in 1. Region 10 returns without waiting for 0, and with it the pipeline; then 0 is executed. *)
Definition bad_log : list gevent := [GStart 20; GStart 10; GStart 1; GFinish 1 boom; GFinish 10 boom; GFinish 20 boom; GStart 0; fin 0].
Definition fails (e : nat) : status := if Nat.eqb e 10 then boom else st_default.
Lemma ex_bad : exists s, reach ex_t s /\ s_log s = bad_log.
Proof.
  pose proof (re_new ex_t) as R. apply go_run in R; [|reflexivity].
  st 10 ltac:(by_top fails boom). st 1 ltac:(by_strag (tl bad_ls) 6). en 1 boom ltac:(exact I) ltac:(by_strag (tl bad_ls) 7). rt 10 boom ltac:(by_strag (tl bad_ls) 15).
  en 10 boom result ltac:(by_top fails boom). rt 20 boom ltac:(by_top fails boom).
  apply go_over with (r := boom) in R; [|vm_compute; lia|result]. st 0 ltac:(by_strag (tl bad_ls) 17). en 0 st_default ltac:(exact I) ltac:(by_strag (tl bad_ls) 18).
  eexists. split; [exact R|]. vm_compute. reflexivity.
Qed.
Lemma ex_in g c : In c (t_kids ex_t g) -> inside ex_t g c.
Proof. intros H. apply (in_kid ex_t g g); [constructor|exact H]. Qed.
(** 11 comes after 10, so 5 (in 11) starts after 10 has ended and while nothing in 10 is executing. *)
Example C116_order_nonvacuous : exists T s, tree_ok T /\ reach T s /\ precedes T 20 10 11 /\ inside T 11 5 /\ inside T 10 0 /\ s_log s = firstn 10 ok_log ++ GStart 5 :: skipn 11 ok_log.
Proof.
  destruct ex_run as (s & R & E). exists ex_t, s. split; [exact ex_ok|]. split; [exact R|]. split; [constructor; vm_compute; auto|]. split; [apply ex_in; now left|]. split; [apply ex_in; now left|]. rewrite E. reflexivity.
Qed.
Example C116_success_nonvacuous : exists T s, tree_ok T /\ reach T s /\ s_log s = firstn 15 ok_log ++ GFinish 20 st_default :: [] /\ t_kind T 20 <> TNode.
Proof. destruct ex_run as (s & R & E). exists ex_t, s. split; [exact ex_ok|]. split; [exact R|]. split; [rewrite E; reflexivity|discriminate]. Qed.
(** The exception in C116_inside is needed: 0 starts in 10 when 10 has ended. *)
Example C116_inside_nonvacuous : exists T s L1, tree_ok T /\ reach T s /\ inside T 10 0 /\ s_log s = L1 ++ GStart 0 :: [fin 0] /\ idle L1 10 /\ In (GFinish 10 boom) L1.
Proof. destruct ex_bad as (s & R & E). exists ex_t, s, (firstn 6 bad_log). split; [exact ex_ok|]. split; [exact R|]. split; [apply ex_in; now left|]. split; [rewrite E; reflexivity|]. split; [reflexivity|]. vm_compute. auto 10. Qed.
(** The error of the pipeline is that of node 1 two levels below. *)
Example C116_source_nonvacuous : exists T s L1 L2, tree_ok T /\ reach T s /\ s_log s = L1 ++ GFinish 20 boom :: L2 /\ (code boom < 0)%Z /\ In (GFinish 1 boom) L1 /\ ~ source T 20 /\ ~ source T 10 /\ source T 1.
Proof.
  destruct ex_bad as (s & R & E). exists ex_t, s, (firstn 5 bad_log), (skipn 6 bad_log). split; [exact ex_ok|]. split; [exact R|]. split; [rewrite E; reflexivity|]. split; [reflexivity|]. split; [vm_compute; auto 10|]. split; [intros [H|[]]; discriminate|]. split; [intros [H|[]]; discriminate|now left].
Qed.
