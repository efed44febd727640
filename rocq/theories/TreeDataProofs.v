(** Proofs about data under nested groups (C117). *)
From Verif Require Import DataProofs.
From Verif Require Import WholeModel WholeSpec WholeProofs StaticProofs DataProps.
From Verif Require Import ListUtil TreeModel TreeSpec TreeProofs TreeDataSpec.
From Coq Require Import List Arith Lia ZArith Permutation.
Import ListNotations.
Local Open Scope nat_scope.

Section N.
Variable T : tree.
Hypothesis TO : tree_ok T.
Hypothesis ON : once T.
Hypothesis ST : steady T.
Notation kids := (t_kids T).
Notation root := (t_root T).

Lemma starts_pairs ps : starts (pairs ps) = map fst ps.
Proof. induction ps as [|[e v] ps IH]; [reflexivity|]. change (pairs ((e, v) :: ps)) with ([GStart e; GFinish e v] ++ pairs ps). rewrite starts_app, IH. reflexivity. Qed.
Lemma fins_pairs ps : finishes (pairs ps) = ps.
Proof. induction ps as [|[e v] ps IH]; [reflexivity|]. change (pairs ((e, v) :: ps)) with ([GStart e; GFinish e v] ++ pairs ps). rewrite finishes_app, IH. reflexivity. Qed.
Lemma at_once e tr o : group_at (t_kind T e) tr o -> NoDup (starts tr).
Proof.
  intros G. pose proof (to_kind T TO e) as KO. destruct (t_kind T e) as [|may|may|g k] eqn:Ek; cbn in G, KO; [contradiction| | |].
  - destruct G as (l & Hl & G). pose proof (ON e may Ek l Hl) as ND. destruct G as [ps rest E _|ps v E _ _|ps c rest E _|ps c r rest o E _ _ _]; rewrite ?starts_app, starts_pairs; subst l.
    + now apply NoDup_app_iff in ND.
    + exact ND.
    + change (starts [GStart c]) with [c]. change (c :: rest) with ([c] ++ rest) in ND. rewrite app_assoc in ND. now apply NoDup_app_iff in ND.
    + change (starts [GStart c; GFinish c r]) with [c]. change (c :: rest) with ([c] ++ rest) in ND. rewrite app_assoc in ND. now apply NoDup_app_iff in ND.
  - destruct G as (l & Hl & G). destruct (KO l Hl) as [_ ND]. destruct G as [N _|res P _]; [exact N|]. apply Permutation_NoDup with l; [now apply Permutation_sym|exact ND].
  - destruct KO as (W & A & _). destruct (eng_at_proper _ _ _ _ W A G) as ((P & _) & _). exact P.
Qed.
(** Everything that was executed is in the tree; a child of a group that was executed at most once started at most once. *)
Lemma on_inside s : reach T s -> (forall d, s_on s d = true -> inside T root d) /\ (forall d, s_on s d = false -> n_starts d (s_log s) = 0).
Proof.
  induction 1 as [|s s' R [IH1 IH2] H]; [split; [discriminate|reflexivity]|]. pose proof (reach_inv T TO s R) as I. destruct H as [H|e NR O G|e r NR B OC G|p res B Rs G|r B OC]; cbn [begins notes ends returns s_on s_log]; (split; [|try (intros d D; rewrite ns_app, ns_fin; specialize (IH2 d D); cbn [b2]; lia)]); auto.
  - intros d D. destruct (Nat.eq_dec d root) as [->|N]; [constructor|]. rewrite upd_other in D by auto. now apply IH1.
  - intros d D. destruct (Nat.eq_dec d root) as [->|N]; [rewrite upd_same in D; discriminate|]. rewrite upd_other in D by auto. rewrite ns_app, ns_start, IH2 by exact D. destruct (Nat.eqb_spec root d); [congruence|reflexivity].
  - intros d D. destruct (Nat.eq_dec d e) as [->|N]; [|rewrite upd_other in D by auto; now apply IH1]. destruct (start_calm T TO s e I O G) as (K & _). apply (in_kid T root (t_par T e)); [now apply IH1|exact K].
  - intros d D. destruct (Nat.eq_dec d e) as [->|N]; [rewrite upd_same in D; discriminate|]. rewrite upd_other in D by auto. rewrite ns_app, ns_start, IH2 by exact D. destruct (Nat.eqb_spec e d); [congruence|reflexivity].
Qed.
Lemma on_par s : reach T s -> forall c, s_on s c = true -> c <> root -> s_on s (t_par T c) = true.
Proof.
  induction 1 as [|s s' R IH H]; [discriminate|]. destruct H as [H|e NR O G|e r NR B OC G|q res B Rs G|r B OC]; cbn [begins notes ends returns s_on]; auto; intros c D N.
  - unfold upd in *. destruct (Nat.eqb_spec c root); [contradiction|]. destruct (Nat.eqb (t_par T c) root); auto.
  - unfold upd in D |- *. destruct (Nat.eqb_spec c e) as [Ec|Ne]; [rewrite Ec; destruct (Nat.eqb (t_par T e) e); auto|]. destruct (Nat.eqb (t_par T c) e); auto.
Qed.
Lemma on_started s p : reach T s -> n_starts p (s_log s) = 0 -> s_on s p = false.
Proof.
  intros R Z. destruct (s_on s p) eqn:On; [exfalso|reflexivity]. destruct (i_since T s (reach_inv T TO s R) p On) as (q & (u & E & _) & _). rewrite E, ns_app in Z. change (GStart p :: q) with ([GStart p] ++ q) in Z. rewrite ns_app, ns_start, Nat.eqb_refl in Z. cbn [b2] in Z. lia.
Qed.
Lemma kid_zero s p c : reach T s -> In c (kids p) -> n_starts p (s_log s) = 0 -> n_starts c (s_log s) = 0.
Proof.
  intros R K Z. apply (on_started s p R) in Z. destruct (kid_par T TO p c K) as [HP HR]. apply (on_inside s R). destruct (s_on s c) eqn:O; [|reflexivity]. apply (on_par s R) in O; [|exact HR]. rewrite HP in O. congruence.
Qed.
Lemma kid_count s p c : reach T s -> In c (kids p) -> n_starts p (s_log s) <= 1 -> n_starts c (s_log s) = n_starts c (s_did s p).
Proof.
  intros R K. induction R as [|s s' R IH H]; [reflexivity|]. pose proof (reach_inv T TO s R) as I. pose proof (kid_neq T TO p c K) as NE. destruct (kid_par T TO p c K) as [HP HR].
  destruct H as [H|e NR O G|e r NR B OC G|q res B Rs G|r B OC]; cbn [begins notes ends returns s_did s_log]; rewrite ?ns_app, ?ns_start, ?ns_fin; intros L.
  - destruct (Nat.eqb_spec root c) as [X|_]; [congruence|]. destruct (Nat.eqb_spec root p) as [Hp|N]; cbn [b2] in *; [rewrite Hp, upd_same|rewrite upd_other by auto; rewrite IH by lia; lia]. rewrite (kid_zero s p c R K) by lia. reflexivity.
  - destruct (start_calm T TO s e I O G) as (Ke & _). destruct (Nat.eqb_spec e p) as [->|N]; cbn [b2] in *.
    + rewrite (kid_zero s p c R K) by lia. destruct (Nat.eqb_spec p c); [congruence|]. rewrite upd_other by (intros X; apply (kid_neq T TO _ _ Ke); now symmetry). rewrite upd_same. reflexivity.
    + unfold upd at 1. destruct (Nat.eqb_spec p (t_par T e)) as [Hp|Np].
      * rewrite <- Hp. rewrite upd_other by auto. rewrite ns_app, ns_start, IH by lia. reflexivity.
      * rewrite upd_other by auto. destruct (Nat.eqb_spec e c) as [->|_]; [congruence|]. rewrite IH by lia. cbn [b2]. lia.
  - unfold upd. destruct (Nat.eqb_spec p (t_par T e)) as [Hp|Np]; [rewrite <- Hp, ns_app, ns_fin|]; rewrite IH by lia; lia.
  - now apply IH.
  - rewrite IH by lia. lia.
Qed.
Lemma starts_le s : reach T s -> n_starts root (s_log s) <= 1 -> forall e, n_starts e (s_log s) <= 1.
Proof.
  intros R L e. destruct (s_on s e) eqn:O; [|destruct (on_inside s R) as [_ OFF]; rewrite OFF by exact O; lia]. apply (on_inside s R) in O. induction O as [|p x _ IH K]; [exact L|]. rewrite (kid_count s p x R K IH). destruct (i_at T s (reach_inv T TO s R) p) as [[D _]|G]; [rewrite D; cbn; lia|]. apply at_once in G. unfold n_starts. now apply (NoDup_count_occ Nat.eq_dec).
Qed.

(** When a group has ended well, every node in it has. *)
Lemma all_ended s e v : reach T s -> forall L1 L2, s_log s = L1 ++ GFinish e v :: L2 -> (0 <= code v)%Z -> forall x, inside T e x -> exists w, In (GFinish x w) (L1 ++ [GFinish e v]) /\ (0 <= code w)%Z.
Proof.
  intros R L1 L2 E V x J. induction J as [|p x J IH K]; [exists v; split; [apply in_or_app; right; now left|exact V]|]. destruct IH as (w & F & W). apply in_split in F as (u1 & u2 & Eu).
  assert (Es : s_log s = u1 ++ GFinish p w :: (u2 ++ L2)). { rewrite E. change (L1 ++ GFinish e v :: L2) with (L1 ++ [GFinish e v] ++ L2). rewrite app_assoc, Eu, <- app_assoc. reflexivity. }
  destruct (tree_success T TO s p w u1 (u2 ++ L2) R Es W) as (q & (u & Eq & _) & C & A).
  assert (X : In x (map fst (finishes (of_kids T p q)))).
  { pose proof (to_kind T TO p) as KO. destruct (t_kind T p) as [|may|may|g k] eqn:Ek; cbn in C, KO.
    - rewrite KO in K. contradiction.
    - destruct C as (ps & Hl & C). rewrite C, fins_pairs. now apply (ST p may (or_introl Ek) _ Hl).
    - destruct C as (l & Hl & _ & C). apply (Permutation_in x (Permutation_sym C)). now apply (ST p may (or_intror Ek) _ Hl).
    - destruct KO as (_ & _ & KO). destruct C as [_ C]. apply (Permutation_in x (Permutation_sym C)). now rewrite KO. }
  apply in_map_iff in X as ((x' & y) & Ex & X). cbn in Ex. subst x'. apply in_finishes in X. apply filter_In in X as [X _]. exists y. split.
  - rewrite Eu, Eq. apply in_or_app. left. apply in_or_app. right. now right.
  - destruct (A x (in_one T p x K)) as [_ B]; [now apply (kid_neq T TO)|]. now apply B.
Qed.
(** A node starts only when all nodes ordered before it have ended. *)
Lemma nodes_order s x y L1 L2 : reach T s -> ordered_in T x y -> s_log s = L1 ++ GStart y :: L2 -> exists w, In (GFinish x w) L1.
Proof.
  intros R (r & a & b & A & B & P & Jx & Jy) E. destruct (tree_order T TO s r a b y L1 L2 R A B P Jy E) as (q & st & (u & Eq & _) & F & V & _). apply in_split in F as (q1 & q2 & Ef).
  assert (Es : s_log s = (u ++ GStart r :: q1) ++ GFinish a st :: (q2 ++ GStart y :: L2)). { rewrite E, Eq, Ef. rewrite <- !app_assoc. cbn. now rewrite <- !app_assoc. }
  destruct (all_ended s a st R _ _ Es V x Jx) as (w & X & _). exists w. rewrite Eq, Ef. change (GStart r :: q1 ++ GFinish a st :: q2) with ((GStart r :: q1) ++ [GFinish a st] ++ q2). rewrite !app_assoc. apply in_or_app. left. exact X.
Qed.

Lemma nodes_split lg : forall t1 x t2, of_nodes T lg = t1 ++ x :: t2 -> exists L1 L2, lg = L1 ++ x :: L2 /\ of_nodes T L1 = t1.
Proof.
  unfold of_nodes. induction lg as [|h lg IH]; intros t1 x t2 E; cbn in E; [destruct t1; discriminate|]. destruct (is_node T (elem_of h)) eqn:N.
  - destruct t1 as [|k t1]; cbn in E; assert (E1 := f_equal (@hd_error gevent) E); cbn in E1; assert (E2 := f_equal (@tl gevent) E); cbn in E2.
    + assert (h = x) by congruence. subst h. exists [], lg. now split.
    + assert (h = k) by congruence. subst k. destruct (IH t1 x t2 E2) as (L1 & L2 & -> & F). exists (h :: L1), L2. split; [reflexivity|]. cbn. rewrite N. now rewrite F.
  - destruct (IH t1 x t2 E) as (L1 & L2 & -> & F). exists (h :: L1), L2. split; [reflexivity|]. cbn. now rewrite N.
Qed.
Lemma node_is e : is_node T e = true <-> t_kind T e = TNode.
Proof. unfold is_node. destruct (t_kind T e); split; congruence. Qed.
Lemma in_nodes x lg : In x (of_nodes T lg) <-> In x lg /\ t_kind T (elem_of x) = TNode.
Proof. unfold of_nodes. rewrite filter_In, node_is. reflexivity. Qed.
Lemma started_inside s e : reach T s -> In (GStart e) (s_log s) -> inside T root e.
Proof. intros R X. destruct (on_inside s R) as [A B]. apply A. destruct (s_on s e) eqn:O; [reflexivity|]. apply B in O. apply ns_zero in O. contradiction. Qed.
Lemma ended_started s e v : reach T s -> In (GFinish e v) (s_log s) -> In (GStart e) (s_log s).
Proof.
  intros R X. apply ne_pos in X. pose proof (i_log T s (reach_inv T TO s R) e) as L. destruct (in_dec Nat.eq_dec e (starts (s_log s))) as [Y|Y]; [now apply in_starts|]. exfalso. assert (Q : ~ In (GStart e) (s_log s)) by (intros Z; apply Y; now apply in_starts). apply ns_zero in Q. lia.
Qed.
Lemma starts_nodes lg : starts (of_nodes T lg) = filter (is_node T) (starts lg).
Proof. unfold of_nodes. induction lg as [|[e|e r] lg IH]; [reflexivity| |]; cbn [filter elem_of starts flat_map app]; fold (starts lg); destruct (is_node T e) eqn:N; cbn; fold (starts (filter (fun x => is_node T (elem_of x)) lg)); rewrite ?IH; try reflexivity. Qed.
Lemma nodup_nodes s : reach T s -> n_starts root (s_log s) <= 1 -> NoDup (starts (of_nodes T (s_log s))).
Proof. intros R L. rewrite starts_nodes. apply NoDup_filter. apply (NoDup_count_occ Nat.eq_dec). intros e. now apply (starts_le s R L e). Qed.

Lemma nest_decided body o m t x s : tree_race_free T body -> respects T o -> reach T s -> n_starts root (s_log s) <= 1 -> xall body (x_new m) t = Some x -> x_tr x = of_nodes T (s_log s) ->
  (forall e r, In (GFinish e r) (x_tr x) -> In (e, r) (results body o m)) /\ ((forall e, node T e -> exists v, In (GFinish e v) (s_log s)) -> forall y, x_mem x y = after body o m y).
Proof.
  intros (Rd & Wr & HB & HC) (NDo & Ino & Or) R L E Tr. destruct (xall_trace body t _ _ E) as (d & Td & Sd & Fd). cbn in Td. subst d.
  set (R' := fun e y => node T e -> Rd e y). set (W' := fun e y => node T e -> Wr e y).
  assert (ND : forall e, node T e \/ ~ node T e). { intros e. destruct (in_dec Nat.eq_dec e o) as [I|I]; [left|right]; now rewrite <- Ino. }
  assert (HB' : forall e, within (R' e) (W' e) (body e)).
  { intros e. destruct (ND e) as [I|I]; [apply within_mono with (Rd e) (Wr e); [intros y H _; exact H|intros y H _; exact H|now apply HB]|]. apply full; [apply always|intros y Q; contradiction|intros y Q; contradiction]. }
  destruct (decided body R' W' HB' m o t x NDo E) as [D1 D2].
  - rewrite <- Sd, Tr. now apply nodup_nodes.
  - rewrite <- Sd, Tr. intros e He. apply Ino. apply in_starts, in_nodes in He as [He Hk]. split; [now apply (started_inside s)|exact Hk].
  - intros f e B C t1 t2 Et. destruct (before_in _ _ _ B) as [If Ie]. apply Ino in If, Ie. assert (Ne : f <> e) by (intros ->; now apply (before_asym o e e NDo)).
    assert (P : ordered_in T f e).
    { destruct (HC f e If Ie Ne) as [P|P]; [|exact P|]. - destruct C as (y & [[C1 C2]|[C1 C2]]); exists y; [left|right]; (split; [now apply C1|]); destruct C2 as [C2|C2]; [left|right|left|right]; now apply C2. - exfalso. apply (before_asym o f e NDo B). now apply Or. }
    subst t. rewrite xall_app in E. destruct (xall body (x_new m) t1) as [s1|] eqn:E1; [|discriminate E]. destruct (xall_trace body t1 _ _ E1) as (d & T1 & _ & F). cbn in T1. cbn [xall xone] in E. destruct (xall_trace body t2 _ _ E) as (d2 & T2 & _). cbn in T2. rewrite T1, <- app_assoc in T2. cbn [app] in T2.
    rewrite Tr in T2. destruct (nodes_split _ _ _ _ T2) as (L1 & L2 & El & Ed). destruct (nodes_order s f e L1 L2 R P El) as (w & X). apply F. exists w. rewrite <- Ed. apply in_nodes. split; [exact X|]. apply If.
  - split; [exact D1|]. intros H y. apply D2. intros e He _. apply Fd. apply Ino in He. destruct (H e He) as (v & X). exists v. rewrite Tr. apply in_nodes. split; [exact X|apply He].
Qed.
Lemma succeeded_all s : reach T s -> succeeded T (s_log s) -> forall e, inside T root e -> exists v, In (GFinish e v) (s_log s) /\ (0 <= code v)%Z.
Proof.
  intros R (v & X & V) e J. apply in_split in X as (L1 & L2 & E). destruct (all_ended s root v R L1 L2 E V e J) as (w & X & W). exists w. split; [|exact W]. rewrite E. change (L1 ++ GFinish root v :: L2) with (L1 ++ [GFinish root v] ++ L2). rewrite app_assoc. apply in_or_app. now left.
Qed.
Lemma succeeded_fine s : reach T s -> n_starts root (s_log s) <= 1 -> succeeded T (s_log s) -> forall e w, In (GFinish e w) (s_log s) -> (0 <= code w)%Z.
Proof.
  intros R L S e w X. destruct (Z_lt_le_dec (code w) 0) as [N|N]; [exfalso|exact N]. pose proof (ended_started s e w R X) as Y. apply (started_inside s e R) in Y. destruct (succeeded_all s R S e Y) as (v & F & V).
  assert (Q : 1 < n_ends e (s_log s)) by (apply (ne_two e v w); [exact F|exact X|intros ->; lia]). pose proof (starts_le s R L e). pose proof (i_log T s (reach_inv T TO s R) e). lia.
Qed.
Lemma results_fst body o : forall m, map fst (results body o m) = o.
Proof. induction o as [|e o IH]; intros m; cbn; [reflexivity|now rewrite IH]. Qed.
Lemma nest_same body o m t x s : tree_race_free T body -> respects T o -> reach T s -> n_starts root (s_log s) <= 1 -> xall body (x_new m) t = Some x -> x_tr x = of_nodes T (s_log s) -> succeeded T (s_log s) ->
  (forall y, x_mem x y = after body o m y) /\ Permutation (finishes (x_tr x)) (results body o m).
Proof.
  intros RF RO R L E Tr S. destruct (nest_decided body o m t x s RF RO R L E Tr) as [D1 D2]. split.
  - apply D2. intros e [J _]. destruct (succeeded_all s R S e J) as (v & X & _). now exists v.
  - destruct RO as (NDo & Ino & _). apply NoDup_Permutation_bis.
    + apply (NoDup_map_inv fst). apply (NoDup_count_occ Nat.eq_dec). intros e. rewrite Tr. assert (Q : count_occ Nat.eq_dec (map fst (finishes (of_nodes T (s_log s)))) e <= n_ends e (s_log s)).
      { unfold n_ends, of_nodes. generalize (s_log s). induction l as [|[f|f r] l IH]; [reflexivity| |]; cbn [filter elem_of].
        - destruct (is_node T f); cbn; exact IH.
        - destruct (is_node T f); unfold finishes in *; cbn [flat_map map app fst count_occ] in *; destruct (Nat.eq_dec f e); lia. }
      pose proof (starts_le s R L e). pose proof (i_log T s (reach_inv T TO s R) e). lia.
    + rewrite <- (map_length fst (results body o m)), results_fst, <- (map_length fst (finishes _)). apply NoDup_incl_length; [exact NDo|]. intros e He. apply Ino in He as [J K]. destruct (succeeded_all s R S e J) as (v & X & _). apply in_map_iff. exists (e, v). split; [reflexivity|]. apply in_finishes. rewrite Tr. now apply in_nodes.
    + intros (e & r) H. apply D1. now apply in_finishes.
Qed.
(** The order in which the nodes of a successful run started is one that all groups allow. *)
Lemma own_order s : reach T s -> n_starts root (s_log s) <= 1 -> succeeded T (s_log s) -> respects T (starts (of_nodes T (s_log s))).
Proof.
  intros R L S. split; [now apply nodup_nodes|]. assert (IN : forall e, In e (starts (of_nodes T (s_log s))) <-> node T e).
  { intros e. rewrite in_starts, in_nodes. cbn [elem_of]. split; [intros [X K]; split; [now apply (started_inside s)|exact K]|]. intros [J K]. split; [|exact K]. destruct (succeeded_all s R S e J) as (v & X & _). now apply (ended_started s e v). }
  split; [exact IN|]. intros x y Nx Ny P. apply IN, in_starts in Ny. apply in_split in Ny as (t1 & t2 & E). destruct (nodes_split _ _ _ _ E) as (L1 & L2 & El & Et). destruct (nodes_order s x y L1 L2 R P El) as (w & X).
  destruct (reach_cut T s L1 _ L2 R El) as (s1 & s2 & R1 & _ & E1 & _). rewrite <- E1 in X. apply (ended_started s1 x w R1) in X. rewrite E1 in X. assert (Y : In (GStart x) t1) by (rewrite <- Et; apply in_nodes; split; [exact X|apply Nx]).
  apply in_split in Y as (u1 & u2 & ->). exists (starts u1), (starts u2), (starts t2). rewrite E, <- app_assoc, starts_app. cbn [app]. change (GStart x :: u2 ++ GStart y :: t2) with ([GStart x] ++ u2 ++ [GStart y] ++ t2). rewrite !starts_app. reflexivity.
Qed.

(** ** A later run of a pipeline is like a first one *)
Record sim (s s' : tst) : Prop := {
  m_on : forall p, s_on s' p = true -> s_on s p = true /\ s_did s' p = s_did s p /\ s_res s' p = s_res s p;
  m_off : forall p, s_on s' p = false -> s_on s p = true -> calm T s p;
  m_busy : forall p, s_busy s' p = s_busy s p
}.
Lemma calm_step s s' e p : calm T s p -> ~ inside T p e -> (forall d, d <> e -> s_busy s' d = s_busy s d /\ s_on s' d = s_on s d /\ s_res s' d = s_res s d) -> calm T s' p.
Proof. intros C N H. apply (calm_ext T s); [|exact C]. intros d D. apply H. intros ->. contradiction. Qed.
Lemma sim_run s : reach T s -> s_on s root = false \/ (s_busy s root = 0 /\ exists v, s_res s root = Some (EReturn v) /\ (0 <= code v)%Z) -> sim (begins root s) (begins root t_new).
Proof.
  intros R H. pose proof (reach_inv T TO s R) as I. assert (K : kids_calm T s root /\ s_busy s root = 0).
  { destruct H as [H|[Z (v & Rv & V)]]; [split; [now apply (off_calm T)|now apply (i_off T s I)]|]. split; [now apply (good_calm T TO s root v)|exact Z]. }
  destruct K as [K Z]. assert (C : forall p, s_on s p = true -> p <> root -> calm T s p).
  { intros p O N. apply (on_inside s R) in O. destruct (in_top T _ _ O) as [X|(c & Kc & J)]; [congruence|]. destruct (K c Kc) as [_ M]. now apply (calm_in T s c). }
  split; cbn [begins t_new s_on s_did s_res s_busy]; intros p.
  - destruct (Nat.eq_dec p root) as [->|N]; [rewrite !upd_same; auto|]. rewrite upd_other by auto. discriminate.
  - destruct (Nat.eq_dec p root) as [->|N]; [rewrite upd_same; discriminate|]. rewrite !upd_other by auto. intros _ O. apply (calm_step s _ root); [now apply C| |]; [intros J; apply N; now apply (in_root T TO)|]. intros d Nd. cbn [begins s_on s_busy s_res]. now rewrite !upd_other by auto.
  - destruct (Nat.eq_dec p root) as [->|N]; [rewrite !upd_same; lia|]. rewrite !upd_other by auto. destruct (s_on s p) eqn:O; [|symmetry; now apply (i_off T s I)]. symmetry. now apply (C p O N p (in_self T p)).
Qed.
Lemma sim_step s s' s1 : reach T s -> reach T s' -> sim s s' -> tstep T s s1 -> s1 <> begins root s -> exists s1' d, tstep T s' s1' /\ sim s1 s1' /\ s_log s1 = s_log s ++ d /\ s_log s1' = s_log s' ++ d /\ ~ In (GStart root) d.
Proof.
  intros R R' M H NB. pose proof (reach_inv T TO s R) as I. pose proof (reach_inv T TO s' R') as I'. destruct H as [H|e NR O G|e r NR B OC G|p res B Rs G|r B OC].
  - now contradiction NB.
  - destruct (start_calm T TO s e I O G) as (K & Z & C & U). set (p := t_par T e) in *. assert (NP : e <> p) by now apply (kid_neq T TO).
    assert (Op : s_on s' p = true). { destruct (s_on s' p) eqn:Op; [reflexivity|exfalso]. apply NP. symmetry. apply U; [now apply (m_off s s' M)|now apply (in_one T)]. }
    destruct (m_on s s' M p Op) as (_ & D & Rr). exists (notes p (GStart e) (begins e s')), [GStart e]. split; [apply ts_start; [exact NR|exact Op|fold p; now rewrite D, Rr]|]. split; [|split; [reflexivity|split; [reflexivity|intros [X|[]]; congruence]]].
    split; cbn [begins notes s_on s_did s_res s_busy]; intros q.
    + destruct (Nat.eq_dec q e) as [->|Nq]; [rewrite !upd_same; intros _; split; [reflexivity|]; rewrite !(upd_other _ p) by auto; rewrite !upd_same; now split|]. rewrite !(upd_other _ e _ q) by auto. intros Oq. destruct (m_on s s' M q Oq) as (A1 & A2 & A3). split; [exact A1|]. split; [|exact A3].
      destruct (Nat.eq_dec q p) as [->|Np]; [rewrite !upd_same, !upd_other by auto; now rewrite D|]. now rewrite !upd_other by auto.
    + destruct (Nat.eq_dec q e) as [->|Nq]; [rewrite upd_same; discriminate|]. rewrite !upd_other by auto. intros O1 O2. pose proof (m_off s s' M q O1 O2) as Cq. apply (calm_step s _ e); [exact Cq|intros J; apply Nq; now apply U|]. intros d Nd. cbn [begins notes s_on s_busy s_res]. now rewrite !upd_other by auto.
    + unfold upd. rewrite (m_busy s s' M e). destruct (Nat.eqb q e); [reflexivity|apply (m_busy s s' M)].
  - assert (K : In e (kids (t_par T e))) by (destruct (i_in T s I e B); [contradiction|assumption]). set (p := t_par T e) in *. assert (B' : 0 < s_busy s' e) by now rewrite (m_busy s s' M). pose proof (busy_on T s' e I' B') as Oe. destruct (m_on s s' M e Oe) as (_ & De & Re).
    assert (Op : s_on s' p = true). { destruct (s_on s' p) eqn:Op; [reflexivity|exfalso]. destruct (i_off T s' I' p Op) as (D & _). destruct (i_kid T s' I' p e K) as [X _]. rewrite D in X. cbn in X. lia. }
    destruct (m_on s s' M p Op) as (_ & D & Rr). exists (notes p (GFinish e r) (ends e r s')), [GFinish e r]. split; [apply ts_end; [exact NR|exact B'| |fold p; now rewrite D, Rr]|].
    { unfold outcome in *. destruct (t_kind T e); [exact Logic.I| | |]; rewrite Re, De; exact OC. }
    split; [|split; [reflexivity|split; [reflexivity|intros [X|[]]; congruence]]]. split; cbn [ends notes s_on s_did s_res s_busy]; intros q.
    + intros Oq. destruct (m_on s s' M q Oq) as (A1 & A2 & A3). split; [exact A1|]. split; [|exact A3]. unfold upd. rewrite D. destruct (Nat.eqb q p); [reflexivity|exact A2].
    + intros O1 O2. pose proof (m_off s s' M q O1 O2) as Cq. apply (calm_step s _ e); [exact Cq|intros J; destruct (Cq e J); lia|]. intros d Nd. cbn [ends notes s_on s_busy s_res]. now rewrite upd_other by auto.
    + unfold upd. rewrite (m_busy s s' M e). destruct (Nat.eqb q e); [reflexivity|apply (m_busy s s' M)].
  - assert (B' : 0 < s_busy s' p) by now rewrite (m_busy s s' M). pose proof (busy_on T s' p I' B') as Op. destruct (m_on s s' M p Op) as (_ & D & Rr). exists (returns p res s'), []. split; [apply ts_return; [exact B'|now rewrite Rr|now rewrite D]|]. split; [|cbn; rewrite !app_nil_r; auto].
    split; cbn [returns s_on s_did s_res s_busy]; intros q.
    + intros Oq. destruct (m_on s s' M q Oq) as (A1 & A2 & A3). split; [exact A1|]. split; [exact A2|]. unfold upd. destruct (Nat.eqb q p); [reflexivity|exact A3].
    + intros O1 O2. pose proof (m_off s s' M q O1 O2) as Cq. apply (calm_step s _ p); [exact Cq|intros J; destruct (Cq p J); lia|]. intros d Nd. cbn [returns s_on s_busy s_res]. now rewrite upd_other by auto.
    + apply (m_busy s s' M).
  - assert (B' : 0 < s_busy s' root) by now rewrite (m_busy s s' M). pose proof (busy_on T s' root I' B') as Op. destruct (m_on s s' M root Op) as (_ & D & Rr). exists (ends root r s'), [GFinish root r]. split; [apply ts_over; [exact B'|]|].
    { unfold outcome in *. destruct (t_kind T root); [exact Logic.I| | |]; rewrite Rr, D; exact OC. }
    split; [|split; [reflexivity|split; [reflexivity|intros [X|[]]; congruence]]]. split; cbn [ends s_on s_did s_res s_busy]; intros q.
    + apply (m_on s s' M).
    + intros O1 O2. pose proof (m_off s s' M q O1 O2) as Cq. apply (calm_step s _ root); [exact Cq|intros J; destruct (Cq root J); lia|]. intros d Nd. cbn [ends s_on s_busy s_res]. now rewrite upd_other by auto.
    + unfold upd. rewrite (m_busy s s' M root). destruct (Nat.eqb q root); [reflexivity|apply (m_busy s s' M)].
Qed.
Lemma fresh_run s : reach T s -> forall L0 q, s_log s = L0 ++ GStart root :: q -> ~ In (GStart root) q -> exists s', reach T s' /\ s_log s' = GStart root :: q.
Proof.
  intros R. assert (X : s_log s = [] \/ exists s' L0 q, reach T s' /\ sim s s' /\ s_log s = L0 ++ s_log s' /\ s_log s' = GStart root :: q /\ ~ In (GStart root) q).
  { induction R as [|s s1 R IH H]; [now left|]. right. assert (DEC : (s1 = begins root s /\ (s_on s root = false \/ (s_busy s root = 0 /\ exists v, s_res s root = Some (EReturn v) /\ (0 <= code v)%Z))) \/ (s1 <> begins root s /\ s_log s <> [])).
    { destruct H as [H|e NR O G|e r NR B OC G|p res B Rs G|r B OC].
      - now left.
      - right. split; [intros E; apply (f_equal s_log) in E; cbn in E; apply app_inj_tail in E as [_ E]; congruence|]. intros E. destruct (i_since T s (reach_inv T TO s R) _ O) as (q & (u & Eu & _) & _). rewrite E in Eu. destruct u; discriminate.
      - right. split; [intros E; apply (f_equal s_log) in E; cbn in E; apply app_inj_tail in E as [_ E]; discriminate|]. intros E. destruct (i_since T s (reach_inv T TO s R) _ (busy_on T s e (reach_inv T TO s R) B)) as (q & (u & Eu & _) & _). rewrite E in Eu. destruct u; discriminate.
      - right. split; [intros E; apply (f_equal s_log) in E; cbn in E; now apply app_self in E|]. intros E. destruct (i_since T s (reach_inv T TO s R) _ (busy_on T s p (reach_inv T TO s R) B)) as (q & (u & Eu & _) & _). rewrite E in Eu. destruct u; discriminate.
      - right. split; [intros E; apply (f_equal s_log) in E; cbn in E; apply app_inj_tail in E as [_ E]; discriminate|]. intros E. destruct (i_since T s (reach_inv T TO s R) _ (busy_on T s root (reach_inv T TO s R) B)) as (q & (u & Eu & _) & _). rewrite E in Eu. destruct u; discriminate. }
    destruct DEC as [[-> C]|[NB NN]].
    - exists (begins root t_new), (s_log s), []. split; [apply (re_step T t_new); [apply re_new|apply ts_run; now left]|]. split; [now apply sim_run|]. split; [reflexivity|]. split; [reflexivity|intros []].
    - destruct IH as [IH|(s' & L0 & q & R' & M & E & E' & F)]; [contradiction|]. destruct (sim_step s s' s1 R R' M H NB) as (s1' & d & St & M1 & D1 & D2 & ND). exists s1', L0, (q ++ d). split; [now apply (re_step T s')|]. split; [exact M1|]. split; [rewrite D1, D2, E; now rewrite app_assoc|]. split; [rewrite D2, E'; reflexivity|]. intros Q. apply in_app_or in Q as [Q|Q]; contradiction. }
  intros L0 q E N. destruct X as [X|(s' & L1 & q' & R' & _ & E1 & E' & F)]; [rewrite X in E; destruct L0; discriminate|]. exists s'. split; [exact R'|]. rewrite E'. f_equal.
  rewrite E1, E' in E. clear -E N F. revert L0 E. induction L1 as [|h L1 IH]; intros [|k L0] E; cbn in E; assert (E2 := f_equal (@tl gevent) E); cbn in E2.
  - exact E2.
  - exfalso. apply F. rewrite E2. apply in_or_app. right. now left.
  - exfalso. apply N. rewrite <- E2. apply in_or_app. right. now left.
  - now apply (IH L0).
Qed.
End N.
