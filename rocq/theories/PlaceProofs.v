From Verif Require Import PlaceModel PlaceSpec.
From Coq Require Import Lia Permutation.
Local Open Scope nat_scope.
Local Open Scope list_scope.

(** * Histories *)
Lemma l_run_app h1 : forall n s h2, l_run n s (h1 ++ h2) =
  (fst (l_run (n + length h1) (fst (l_run n s h1)) h2), snd (l_run n s h1) ++ snd (l_run (n + length h1) (fst (l_run n s h1)) h2)).
Proof.
  induction h1 as [|o h1 IH]; intros n s h2; cbn [app length l_run fst snd].
  - rewrite Nat.add_0_r. now destruct (l_run n s h2).
  - destruct (l_step n s o) as [s1 a]. rewrite IH. rewrite Nat.add_succ_r, <- Nat.add_succ_l. destruct (l_run (S n) s1 h1) as [s2 l]. reflexivity.
Qed.
Lemma l_after_snoc h o : l_after (h ++ [o]) = fst (l_step (length h) (l_after h) o).
Proof. unfold l_after. rewrite l_run_app. cbn [fst l_run Nat.add]. now destruct (l_step _ _ o). Qed.
Lemma l_answers_snoc h o : l_answers (h ++ [o]) = l_answers h ++ [snd (l_step (length h) (l_after h) o)].
Proof. unfold l_answers, l_after. rewrite l_run_app. cbn [snd fst l_run Nat.add]. now destruct (l_step _ _ o). Qed.
Lemma l_run_len h : forall n s, length (snd (l_run n s h)) = length h.
Proof. induction h as [|o h IH]; intros n s; [reflexivity|]. cbn. destruct (l_step n s o) as [s1 a]. specialize (IH (S n) s1). destruct (l_run (S n) s1 h). cbn in *. lia. Qed.
Definition counted (a : lans) (l : list nat) : list nat := match a with LOk => l | _ => [] end.
Lemma given_snoc h : forall n a o b, length a = length h -> given n (h ++ [o]) (a ++ [b]) = given n h a ++ counted b (gives (n + length h) o).
Proof.
  induction h as [|x h IH]; intros n [|y a] o b L; try discriminate; cbn [app given length].
  - rewrite Nat.add_0_r. destruct b; cbn; now rewrite ?app_nil_r.
  - injection L as L. rewrite (IH (S n) a o b L). rewrite Nat.add_succ_l, Nat.add_succ_r. destruct y; now rewrite ?app_assoc.
Qed.
Lemma given_all h o : given 0 (h ++ [o]) (l_answers (h ++ [o])) = given 0 h (l_answers h) ++ counted (snd (l_step (length h) (l_after h) o)) (gives (length h) o).
Proof. rewrite l_answers_snoc, given_snoc; [reflexivity|]. apply l_run_len. Qed.

(** * Walks *)
Definition down (kids : nat -> list nat) : Prop := forall e c, In c (kids e) -> c < e.
Definition w (kids : nat -> list nat) (e : nat) : list nat := match walk (S e) kids e with Some l => l | None => [] end.
Lemma concat_some {A} (f : A -> option (list nat)) (g : A -> list nat) l : (forall x, In x l -> f x = Some (g x)) -> concat_opt (map f l) = Some (flat_map g l).
Proof. induction l as [|x l IH]; intro H; [reflexivity|]. cbn. rewrite H by now left. rewrite IH by (intros; apply H; now right). reflexivity. Qed.
Lemma walk_any kids : down kids -> forall e f1 f2, e < f1 -> e < f2 -> walk f1 kids e = walk f2 kids e /\ walk f1 kids e <> None.
Proof.
  intro D. induction e as [e IH] using lt_wf_ind. intros f1 f2 L1 L2. destruct f1 as [|f1]; [lia|]. destruct f2 as [|f2]; [lia|]. cbn.
  assert (X : forall c, In c (kids e) -> walk f1 kids c = Some (w kids c) /\ walk f2 kids c = Some (w kids c)).
  { intros c C. pose proof (D e c C). unfold w. destruct (IH c ltac:(lia) f1 (S c) ltac:(lia) ltac:(lia)) as [E1 N1]. destruct (IH c ltac:(lia) f2 (S c) ltac:(lia) ltac:(lia)) as [E2 N2].
    rewrite E1, E2 in *. now destruct (walk (S c) kids c). }
  rewrite (concat_some _ (w kids)) by (intros; now apply X). rewrite (concat_some _ (w kids)) by (intros; now apply X). now split.
Qed.
Lemma walk_w kids f e : down kids -> e < f -> walk f kids e = Some (w kids e).
Proof. intros D L. unfold w. destruct (walk_any kids D e f (S e) L ltac:(lia)) as [E N]. rewrite E in *. now destruct (walk (S e) kids e). Qed.
Lemma w_eq kids e : down kids -> w kids e = e :: flat_map (w kids) (kids e).
Proof.
  intro D. unfold w at 1. cbn [walk]. rewrite (concat_some _ (w kids)); [reflexivity|]. intros c C. apply walk_w; [exact D|]. apply D in C. lia.
Qed.
Lemma w_le kids : down kids -> forall e x, In x (w kids e) -> x <= e.
Proof.
  intro D. induction e as [e IH] using lt_wf_ind. intros x X. rewrite w_eq in X by exact D. destruct X as [->|X]; [lia|]. apply in_flat_map in X. destruct X as (c & C & X). apply D in C. apply IH in X; lia.
Qed.

(** * The invariant *)
Definition kidlist (n : nat) (s : lst) : list nat := flat_map (l_kids s) (seq 0 n).
Record linv (n : nat) (s : lst) (gv : list nat) : Prop := mk_linv
  { v_lt : forall e, In e (l_all s) -> e < n;
    v_kid : forall e g, In e (l_kids s g) -> e < g /\ g < n;
    v_bel : forall e g, l_belong s e = Some g -> In e (l_kids s g);
    v_has : forall e g, In e (l_kids s g) -> l_belong s e <> None;
    v_root : forall e, In e (l_roots s) -> l_mgr s e = true;
    v_mgr : forall e, l_mgr s e = true -> e < n;
    v_perm : Permutation (l_roots s ++ kidlist n s) gv }.
Arguments v_lt {n s gv}. Arguments v_kid {n s gv}. Arguments v_bel {n s gv}. Arguments v_has {n s gv}. Arguments v_root {n s gv}. Arguments v_mgr {n s gv}. Arguments v_perm {n s gv}.
Lemma inv_down n s gv : linv n s gv -> down (l_kids s).
Proof. intros I e c C. now apply (v_kid I). Qed.
Lemma kids_new n s gv : linv n s gv -> l_kids s n = [].
Proof. intro I. destruct (l_kids s n) as [|c l] eqn:E; [reflexivity|]. assert (In c (l_kids s n)) by (rewrite E; now left). apply (v_kid I) in H. lia. Qed.
Lemma kidlist_S n s : l_kids s n = [] -> kidlist (S n) s = kidlist n s.
Proof. intro K. unfold kidlist. rewrite seq_S, flat_map_app. cbn. now rewrite K, !app_nil_r. Qed.
Lemma inv_more n s gv : linv n s gv -> linv (S n) s gv.
Proof.
  intro I. constructor; try apply I.
  - intros e H. apply (v_lt I) in H. lia.
  - intros e g H. apply (v_kid I) in H. lia.
  - intros e H. apply (v_mgr I) in H. lia.
  - rewrite kidlist_S by (eapply kids_new; exact I). apply I.
Qed.
Lemma inv_make n s gv b r : linv n s gv -> linv (S n) (l_make n b r s) gv.
Proof.
  intro I. apply inv_more in I. constructor; try apply I. cbn. intros e H. apply in_app_iff in H. destruct H as [H|[<-|[]]]; [now apply (v_lt I)|lia].
Qed.
Lemma inner_inv n m s gv e : linv n s gv -> e < n -> n <= S m -> l_mgr s e = false -> snd (l_inner m s e) = LOk /\ linv n (fst (l_inner m s e)) (e :: gv).
Proof.
  intros I L LM M. unfold l_inner, give_managers. rewrite walk_w; [|now apply (inv_down n s gv)|lia]. cbn [fst snd]. split; [reflexivity|].
  assert (NR : memb e (l_roots s) = false) by (apply memb_false; intro H; apply (v_root I) in H; congruence).
  constructor; cbn [l_all l_kids l_belong l_mgr l_roots]; try apply I.
  - intros x X. unfold set_add in X. rewrite NR in X. apply in_app_iff in X. apply orb_true_iff. destruct X as [X|[<-|[]]]; [right; now apply (v_root I)|left].
    apply memb_in. rewrite w_eq by now apply (inv_down n s gv). now left.
  - intros x X. apply orb_prop in X. destruct X as [X|X]; [|now apply (v_mgr I)]. apply memb_in in X. apply w_le in X; [lia|now apply (inv_down n s gv)].
  - unfold set_add. rewrite NR, <- app_assoc. cbn [app]. unfold kidlist. cbn [l_kids]. symmetry. apply Permutation_cons_app. symmetry. apply I.
Qed.
Lemma add_all_spec m g els : forall s, l_mgr s g = false -> exists s', l_add_all m s g els = Some s' /\
  l_all s' = l_all s /\ l_group s' = l_group s /\ l_region s' = l_region s /\ l_mgr s' = l_mgr s /\ l_roots s' = l_roots s /\
  (forall x, l_kids s' x = if Nat.eqb x g then l_kids s g ++ els else l_kids s x) /\ (forall x, l_belong s' x = if memb x els then Some g else l_belong s x).
Proof.
  induction els as [|e els IH]; intros s M.
  - exists s. cbn [l_add_all]. split; [reflexivity|]. do 5 (split; [reflexivity|]). split; [|reflexivity]. intro x. destruct (Nat.eqb_spec x g) as [->|]; [now rewrite app_nil_r|reflexivity].
  - cbn [l_add_all]. unfold l_add. rewrite M. set (s1 := mkL _ _ _ _ _ _ _). destruct (IH s1 M) as (s' & E & A1 & A2 & A3 & A4 & A5 & A6 & A7). exists s'. split; [exact E|].
    split; [exact A1|]. split; [exact A2|]. split; [exact A3|]. split; [exact A4|]. split; [exact A5|]. split.
    + intro x. rewrite A6. unfold s1. cbn [l_kids]. rewrite upd_same. destruct (Nat.eqb_spec x g) as [->|N]; [now rewrite <- app_assoc|now rewrite upd_other by exact N].
    + intro x. rewrite A7. unfold s1. cbn [l_belong]. unfold upd. cbn [memb existsb]. fold (memb x els). destruct (Nat.eqb x e), (memb x els); reflexivity.
Qed.
Lemma group_inv n s gv r els : linv n s gv -> exist s els = true -> snd (l_step n s (LGroup r els)) = LOk /\ linv (S n) (fst (l_step n s (LGroup r els))) (gv ++ els).
Proof.
  intros I X. cbn [l_step]. rewrite X. pose proof (inv_make n s gv true r I) as I1. set (s1 := l_make n true r s) in *.
  assert (M : l_mgr s1 n = false) by (destruct (l_mgr s1 n) eqn:M; [|reflexivity]; apply (v_mgr I) in M; lia).
  destruct (add_all_spec n n els s1 M) as (s' & E & A1 & A2 & A3 & A4 & A5 & A6 & A7). rewrite E. cbn [fst snd]. split; [reflexivity|].
  pose proof (kids_new n s gv I) as KN. assert (KN1 : l_kids s1 n = []) by exact KN.
  assert (EL : forall e, In e els -> e < n) by (intros e H; unfold exist in X; rewrite forallb_forall in X; specialize (X e H); apply memb_in in X; now apply (v_lt I)).
  constructor.
  - intros e H. rewrite A1 in H. now apply (v_lt I1).
  - intros e g H. rewrite A6 in H. destruct (Nat.eqb_spec g n) as [EG|N]; [subst g; rewrite KN1 in H; apply EL in H; lia|]. now apply (v_kid I1).
  - intros e g H. rewrite A7 in H. rewrite A6. destruct (memb e els) eqn:ME.
    + injection H as <-. rewrite Nat.eqb_refl. apply in_app_iff. right. now apply memb_in.
    + apply (v_bel I1) in H. destruct (Nat.eqb_spec g n) as [EG|N]; [subst g; rewrite KN1 in H; destruct H|exact H].
  - intros e g H. rewrite A6 in H. rewrite A7. destruct (memb e els) eqn:ME; [discriminate|]. destruct (Nat.eqb_spec g n) as [EG|N].
    + subst g. rewrite KN1 in H. cbn in H. apply memb_false in ME. contradiction.
    + now apply (v_has I1) in H.
  - intros e H. rewrite A4. rewrite A5 in H. now apply (v_root I1).
  - intros e H. rewrite A4 in H. now apply (v_mgr I1).
  - rewrite A5. assert (K : kidlist (S n) s' = kidlist n s ++ els).
    { unfold kidlist. rewrite seq_S, flat_map_app. cbn [Nat.add flat_map]. rewrite app_nil_r, A6, Nat.eqb_refl, KN1. cbn [app]. f_equal. rewrite !flat_map_concat_map. f_equal. apply map_ext_in. intros x IX. apply in_seq in IX.
      rewrite A6. destruct (Nat.eqb_spec x n); [lia|reflexivity]. }
    rewrite K, app_assoc. apply Permutation_app_tail, I.
Qed.
Lemma step_inv n s gv o : linv n s gv -> match o with LAddPy _ _ | LRegPy _ => False | _ => True end ->
  linv (S n) (fst (l_step n s o)) (gv ++ counted (snd (l_step n s o)) (gives n o)).
Proof.
  intros I C. assert (PC : forall m s' x, linv m s' (x :: gv) -> linv m s' (gv ++ [x])).
  { intros m s' x J. constructor; try apply J. rewrite (v_perm J). apply Permutation_cons_append. }
  destruct o as [|r els| |g|e|g els|e]; try contradiction.
  - cbn. rewrite app_nil_r. now apply inv_make.
  - destruct (exist s els) eqn:X.
    + destruct (group_inv n s gv r els I X) as [A B]. rewrite A. exact B.
    + cbn [l_step]. rewrite X. cbn. rewrite app_nil_r. now apply inv_more.
  - cbn [l_step]. destruct (inner_inv (S n) n (l_make n false false s) gv n) as [A B].
    + now apply inv_make.
    + lia.
    + lia.
    + cbn. destruct (l_mgr s n) eqn:M; [|reflexivity]. apply (v_mgr I) in M. lia.
    + rewrite A. cbn [counted gives]. now apply PC.
  - cbn [l_step gives]. destruct (exist s [g] && l_group s g) eqn:X; [|cbn; rewrite app_nil_r; now apply inv_more].
    destruct (l_mgr s g) eqn:M; [cbn; rewrite app_nil_r; now apply inv_more|]. apply andb_prop in X. destruct X as [X _]. cbn in X. rewrite andb_true_r in X. apply memb_in, (v_lt I) in X.
    destruct (inner_inv n n s gv g I X ltac:(lia) M) as [A B]. rewrite A. cbn [counted]. apply inv_more. now apply PC.
  - cbn [l_step gives]. destruct (exist s [e]) eqn:X; [|cbn; rewrite app_nil_r; now apply inv_more]. destruct (l_belong s e); [cbn; rewrite app_nil_r; now apply inv_more|].
    destruct (l_mgr s e) eqn:M; [cbn; rewrite app_nil_r; now apply inv_more|]. cbn in X. rewrite andb_true_r in X. apply memb_in, (v_lt I) in X.
    destruct (inner_inv n n s gv e I X ltac:(lia) M) as [A B]. rewrite A. cbn [counted]. apply inv_more. now apply PC.
Qed.
Lemma linv_all h : cpp h -> linv (length h) (l_after h) (given 0 h (l_answers h)).
Proof.
  induction h as [|o h IH] using rev_ind; intro C.
  - constructor; cbn; try easy.
  - rewrite l_after_snoc, given_all, app_length, Nat.add_1_r. apply step_inv.
    + apply IH. intros x X. apply C. apply in_app_iff. now left.
    + apply C. apply in_app_iff. right. now left.
Qed.

(** * Paths *)
Definition up (n : nat) (belong : nat -> option nat) : Prop := forall e g, belong e = Some g -> e < g /\ g < n.
Lemma path_some n s gv : linv n s gv -> forall f e, n - e < f -> exists l, deep_path f (l_belong s) e = Some l /\ upwards s e l.
Proof.
  intros I. induction f as [|f IH]; intros e L; [lia|]. cbn. destruct (l_belong s e) as [g|] eqn:B.
  - pose proof (v_kid I _ _ (v_bel I _ _ B)). destruct (IH g ltac:(lia)) as (l & -> & U). exists (e :: l). split; [reflexivity|]. eapply up_step; eassumption.
  - exists [e]. split; [reflexivity|]. now constructor.
Qed.
Lemma up_det s e l : upwards s e l -> forall l', upwards s e l' -> l = l'.
Proof. induction 1 as [e B|e g l B U IH]; intros l' U'; inversion U'; subst; try congruence. f_equal. apply IH. congruence. Qed.
Lemma up_head s e l : upwards s e l -> In e l.
Proof. destruct 1; now left. Qed.
(** What is above [a] is above everything below [a]. *)
Lemma up_suffix s e l : upwards s e l -> forall a, In a l -> exists l', upwards s a l' /\ forall b, In b l' -> In b l.
Proof.
  induction 1 as [e B|e g l B U IH]; intros a A.
  - destruct A as [<-|[]]. exists [e]. split; [now constructor|auto].
  - destruct A as [<-|A].
    + exists (e :: l). split; [eapply up_step; eassumption|auto].
    + destruct (IH a A) as (l' & U' & S). exists l'. split; [exact U'|]. intros b Bb. right. now apply S.
Qed.
Lemma up_ge n s gv : linv n s gv -> forall e l, upwards s e l -> forall a, In a l -> e <= a.
Proof.
  intros I e l U. induction U as [e B|e g l B U IH]; intros a A.
  - destruct A as [<-|[]]; lia.
  - destruct A as [<-|A]; [lia|]. apply IH in A. pose proof (v_kid I _ _ (v_bel I _ _ B)). lia.
Qed.
(** Two elements of one path are below each other. *)
Lemma up_linear s e l : upwards s e l -> forall a b, In a l -> In b l -> (exists l', upwards s a l' /\ In b l') \/ (exists l', upwards s b l' /\ In a l').
Proof.
  induction 1 as [e B|e g l B U IH]; intros a b Ha Hb.
  - destruct Ha as [<-|[]]. destruct Hb as [<-|[]]. left. exists [e]. split; [now constructor|now left].
  - destruct Ha as [<-|Ha]; [left; exists (e :: l); split; [eapply up_step; eassumption|exact Hb]|].
    destruct Hb as [<-|Hb]; [right; exists (e :: l); split; [eapply up_step; eassumption|now right]|]. now apply IH.
Qed.

(** * When every element is given once *)
Section Once.
Variables (n : nat) (s : lst) (gv : list nat).
Hypothesis I : linv n s gv.
Hypothesis ND : NoDup gv.
Let L := l_roots s ++ kidlist n s.
Lemma nodupL : NoDup L.
Proof. eapply Permutation_NoDup; [symmetry; apply (v_perm I)|exact ND]. Qed.
Lemma nodup_flat {A B} (f : A -> list B) l : NoDup (flat_map f l) -> NoDup l -> forall a b x, In a l -> In b l -> In x (f a) -> In x (f b) -> a = b.
Proof.
  induction l as [|y l IH]; intros N NL a b x A1 B1 X1 X2; [destruct A1|]. cbn in N. apply NoDup_app_iff in N. destruct N as (N1 & N2 & N3). apply NoDup_cons_iff in NL. destruct NL as [NL1 NL2].
  destruct A1 as [->|A1], B1 as [->|B1]; [reflexivity| | |eapply IH; eassumption].
  - exfalso. apply (N3 x X1). apply in_flat_map. now exists b.
  - exfalso. apply (N3 x X2). apply in_flat_map. now exists a.
Qed.
Lemma kid_in e g : In e (l_kids s g) -> In e (kidlist n s).
Proof. intro H. apply in_flat_map. exists g. split; [|exact H]. apply in_seq. apply (v_kid I) in H. lia. Qed.
Lemma kid_unique e g g' : In e (l_kids s g) -> In e (l_kids s g') -> g = g'.
Proof.
  intros H H'. pose proof nodupL as N. apply NoDup_app_iff in N. destruct N as (_ & N & _). eapply (nodup_flat (l_kids s) (seq 0 n) N (seq_NoDup n 0)); [| |exact H|exact H'].
  - apply in_seq. apply (v_kid I) in H. lia.
  - apply in_seq. apply (v_kid I) in H'. lia.
Qed.
Lemma kid_belong e g : In e (l_kids s g) <-> l_belong s e = Some g.
Proof.
  split; [|apply (v_bel I)]. intro H. destruct (l_belong s e) as [g'|] eqn:B; [|now destruct (v_has I e g H)]. f_equal. apply (kid_unique e); [exact (v_bel I _ _ B)|exact H].
Qed.
Lemma root_top e : In e (l_roots s) -> l_belong s e = None.
Proof.
  intro H. destruct (l_belong s e) as [g|] eqn:B; [|reflexivity]. exfalso. pose proof nodupL as N. apply NoDup_app_iff in N. destruct N as (_ & _ & N). apply (N e H). eapply kid_in, (v_bel I), B.
Qed.
Lemma nodup_part {A B} (f : A -> list B) l a : In a l -> NoDup (flat_map f l) -> NoDup (f a).
Proof. induction l as [|y l IH]; intros H N; [destruct H|]. cbn in N. apply NoDup_app_iff in N. destruct N as (N1 & N2 & _). destruct H as [->|H]; [exact N1|now apply IH]. Qed.
Lemma kids_nodup g : NoDup (l_kids s g).
Proof.
  destruct (l_kids s g) as [|c l] eqn:E; [constructor|]. rewrite <- E. pose proof nodupL as N. apply NoDup_app_iff in N. destruct N as (_ & N & _). apply (nodup_part (l_kids s) (seq 0 n)); [|exact N].
  apply in_seq. assert (In c (l_kids s g)) by (rewrite E; now left). apply (v_kid I) in H. lia.
Qed.
Lemma set_fold l : forall acc, NoDup (acc ++ l) -> fold_left (fun l e => set_add e l) l acc = acc ++ l.
Proof.
  induction l as [|e l IH]; intros acc N; [now rewrite app_nil_r|]. cbn. unfold set_add at 2. destruct (memb e acc) eqn:M.
  - apply memb_in in M. apply NoDup_remove_2 in N. exfalso. apply N. apply in_app_iff. now left.
  - rewrite IH; rewrite <- app_assoc; [reflexivity|exact N].
Qed.
Lemma init_kids_eq g : init_kids s g = l_kids s g.
Proof. unfold init_kids. destruct (l_region s g); [|reflexivity]. rewrite set_fold; [reflexivity|]. apply kids_nodup. Qed.
Lemma walk_ext k1 k2 : (forall g, k1 g = k2 g) -> forall f e, walk f k1 e = walk f k2 e.
Proof. intro H. induction f as [|f IH]; intro e; [reflexivity|]. cbn. rewrite H. now rewrite (map_ext _ _ IH). Qed.
Lemma down_s : down (l_kids s).
Proof. eapply inv_down, I. Qed.
Definition k := l_kids s.
Lemma w_up e x : In x (w k e) <-> exists l, upwards s x l /\ In e l.
Proof.
  revert x. induction e as [e IH] using lt_wf_ind. intro x. rewrite w_eq by exact down_s. split.
  - intros [<-|H].
    + destruct (path_some n s gv I (S (n - e)) e ltac:(lia)) as (l & _ & U). exists l. split; [exact U|]. exact (up_head _ _ _ U).
    + apply in_flat_map in H. destruct H as (c & C & H). apply IH in H; [|now apply down_s]. destruct H as (l & U & Hl). exists l. split; [exact U|].
      destruct (up_suffix s x l U c Hl) as (l' & U' & SUB). apply SUB. apply kid_belong in C. inversion U'; subst; [congruence|]. right. rewrite C in H. injection H as <-. exact (up_head _ _ _ H0).
  - intros (l & U & H). revert H. induction U as [x B|x g l B U IHU]; intro H.
    + destruct H as [<-|[]]. now left.
    + destruct H as [<-|H]; [now left|]. specialize (IHU H). right. destruct IHU as [->|IHU].
      * apply in_flat_map. exists x. apply kid_belong in B. split; [exact B|]. rewrite w_eq by exact down_s. now left.
      * apply in_flat_map in IHU. destruct IHU as (c & C & G). apply in_flat_map. exists c. split; [exact C|]. apply IH; [now apply down_s|]. apply IH in G; [|now apply down_s].
        destruct G as (l1 & U1 & H1). exists (x :: l1). split; [eapply up_step; eassumption|now right].
Qed.
Lemma disjoint_sibs a b x : l_belong s a = l_belong s b -> In x (w k a) -> In x (w k b) -> a = b.
Proof.
  intros E A B. apply w_up in A. apply w_up in B. destruct A as (l & U & A). destruct B as (l' & U' & B). rewrite <- (up_det s x l U l' U') in B.
  assert (X : forall a b, l_belong s a = l_belong s b -> forall l1, upwards s a l1 -> In b l1 -> a = b).
  { clear a b E A B. intros a b E l1 U1 B. destruct U1 as [a B1|a g l1 B1 U1]; [now destruct B as [<-|[]]|]. destruct B as [<-|B]; [reflexivity|]. exfalso.
    pose proof (up_ge n s gv I g l1 U1 b B). rewrite E in B1. pose proof (v_kid I _ _ (v_bel I _ _ B1)). lia. }
  destruct (up_linear s x l U a b A B) as [(l1 & U1 & H1)|(l1 & U1 & H1)]; [eapply X; eassumption|symmetry; eapply X; [symmetry; exact E|eassumption|exact H1]].
Qed.
Lemma flat_nodup {A} (f : A -> list nat) l : NoDup l -> (forall a, In a l -> NoDup (f a)) -> (forall a b x, In a l -> In b l -> In x (f a) -> In x (f b) -> a = b) -> NoDup (flat_map f l).
Proof.
  induction l as [|y l IH]; intros N F D; [constructor|]. cbn. apply NoDup_cons_iff in N. destruct N as [N1 N2]. apply NoDup_app_iff. split; [apply F; now left|]. split.
  - apply IH; [exact N2|intros; apply F; now right|]. intros a b x A1 B1. apply D; now right.
  - intros x X H. apply in_flat_map in H. destruct H as (b & B & H). apply N1. rewrite (D y b x); [exact B|now left|now right|exact X|exact H].
Qed.
Lemma w_nodup e : NoDup (w k e).
Proof.
  induction e as [e IH] using lt_wf_ind. rewrite w_eq by exact down_s. constructor.
  - intro H. apply in_flat_map in H. destruct H as (c & C & H). apply w_le in H; [|exact down_s]. apply down_s in C. lia.
  - apply flat_nodup; [apply kids_nodup|intros c C; apply IH; now apply down_s|]. intros a b x A B. apply disjoint_sibs. apply kid_belong in A. apply kid_belong in B. congruence.
Qed.
Lemma init_list f : n <= f -> init_calls f s = Some (flat_map (w k) (l_roots s)).
Proof.
  intro F. unfold init_calls. apply concat_some. intros r R. rewrite (walk_ext _ _ init_kids_eq). apply walk_w; [exact down_s|]. apply (v_root I), (v_mgr I) in R. lia.
Qed.
Lemma init_nodup : NoDup (flat_map (w k) (l_roots s)).
Proof.
  apply flat_nodup; [|intros; apply w_nodup|].
  - pose proof nodupL as N. apply NoDup_app_iff in N. apply N.
  - intros a b x A B. apply disjoint_sibs. now rewrite (root_top a A), (root_top b B).
Qed.
End Once.
Lemma down_init n s gv : linv n s gv -> down (init_kids s).
Proof.
  intros I e c C. unfold init_kids in C. destruct (l_region s e); [|now apply (v_kid I)]. assert (X : forall l acc, In c (fold_left (fun l e => set_add e l) l acc) -> In c acc \/ In c l).
  { clear. induction l as [|x l IH]; intros acc H; [now left|]. cbn in H. apply IH in H. destruct H as [H|H]; [|right; now right]. unfold set_add in H. destruct (memb x acc); [now left|]. apply in_app_iff in H. destruct H as [H|[<-|[]]]; [now left|right; now left]. }
  apply X in C. destruct C as [[]|C]. now apply (v_kid I).
Qed.

(** * The state tells what was built *)
Definition fine_op (o : lop) : Prop := match o with LAddPy _ _ | LRegPy _ => False | _ => True end.
Lemma inner_keeps m s e : l_kids (fst (l_inner m s e)) = l_kids s /\ l_group (fst (l_inner m s e)) = l_group s /\ l_region (fst (l_inner m s e)) = l_region s /\ l_all (fst (l_inner m s e)) = l_all s.
Proof. unfold l_inner, give_managers. now destruct (walk _ _ _). Qed.
Lemma mgr_new n s gv : linv n s gv -> l_mgr s n = false.
Proof. intro I. destruct (l_mgr s n) eqn:M; [|reflexivity]. apply (v_mgr I) in M. lia. Qed.
Lemma group_fields n s gv r els : linv n s gv -> exist s els = true -> exists s', l_step n s (LGroup r els) = (s', LOk) /\
  l_all s' = l_all s ++ [n] /\ l_group s' = upd (l_group s) n true /\ l_region s' = upd (l_region s) n r /\ l_mgr s' = l_mgr s /\ l_roots s' = l_roots s /\
  (forall x, l_kids s' x = if Nat.eqb x n then els else l_kids s x).
Proof.
  intros I X. cbn [l_step]. rewrite X. destruct (add_all_spec n n els (l_make n true r s) (mgr_new n s gv I)) as (s' & E & A1 & A2 & A3 & A4 & A5 & A6 & A7). rewrite E. exists s'. split; [reflexivity|].
  split; [exact A1|]. split; [exact A2|]. split; [exact A3|]. split; [exact A4|]. split; [exact A5|]. intro x. rewrite A6. cbn [l_make l_kids]. rewrite (kids_new n s gv I). reflexivity.
Qed.
Lemma step_keeps n s gv o : linv n s gv -> fine_op o -> forall g, g < n ->
  l_kids (fst (l_step n s o)) g = l_kids s g /\ l_group (fst (l_step n s o)) g = l_group s g /\ l_region (fst (l_step n s o)) g = l_region s g /\ (In g (l_all s) -> In g (l_all (fst (l_step n s o)))).
Proof.
  intros I F g G. assert (NE : g <> n) by lia. destruct o as [|r els| |e|e|e els|e]; try contradiction.
  - cbn. rewrite !upd_other by exact NE. do 3 (split; [reflexivity|]). intro H. apply in_app_iff. now left.
  - destruct (exist s els) eqn:X; [|cbn [l_step]; rewrite X; auto]. destruct (group_fields n s gv r els I X) as (s' & -> & A1 & A2 & A3 & _ & _ & A6). cbn [fst]. rewrite A1, A2, A3, A6, !upd_other by exact NE.
    apply Nat.eqb_neq in NE. rewrite NE. do 3 (split; [reflexivity|]). intro H. apply in_app_iff. now left.
  - cbn [l_step]. destruct (inner_keeps n (l_make n false false s) n) as (-> & -> & -> & ->). cbn. rewrite !upd_other by exact NE. do 3 (split; [reflexivity|]). intro H. apply in_app_iff. now left.
  - cbn [l_step]. destruct (_ && _); [|auto]. destruct (l_mgr s e); [auto|]. destruct (inner_keeps n s e) as (-> & -> & -> & ->). auto.
  - cbn [l_step]. destruct (exist s [e]); [|auto]. destruct (l_belong s e); [auto|]. destruct (l_mgr s e); [auto|]. destruct (inner_keeps n s e) as (-> & -> & -> & ->). auto.
Qed.
Lemma inner_roots n m s gv e : linv n s gv -> e < n -> n <= S m -> l_mgr s e = false -> l_roots (fst (l_inner m s e)) = l_roots s ++ [e].
Proof.
  intros I L LM M. unfold l_inner, give_managers. rewrite walk_w; [|now apply (inv_down n s gv)|lia]. cbn. unfold set_add.
  replace (memb e (l_roots s)) with false; [reflexivity|]. symmetry. apply memb_false. intro H. apply (v_root I) in H. congruence.
Qed.
Lemma step_roots n s gv o : linv n s gv -> fine_op o -> l_roots (fst (l_step n s o)) = l_roots s ++ counted (snd (l_step n s o)) (registers n o).
Proof.
  intros I F. destruct o as [|r els| |e|e|e els|e]; try contradiction.
  - cbn. now rewrite app_nil_r.
  - destruct (exist s els) eqn:X; [|cbn [l_step]; rewrite X; cbn; now rewrite app_nil_r]. destruct (group_fields n s gv r els I X) as (s' & -> & _ & _ & _ & _ & A5 & _). cbn. now rewrite app_nil_r.
  - cbn [l_step registers]. pose proof (inv_make n s gv false false I) as I1. pose proof (mgr_new n s gv I : l_mgr (l_make n false false s) n = false) as M.
    rewrite (inner_roots (S n) n _ gv n I1) by (auto; lia). destruct (inner_inv (S n) n _ gv n I1 ltac:(lia) ltac:(lia) M) as [-> _]. reflexivity.
  - cbn [l_step registers]. destruct (exist s [e] && l_group s e) eqn:X; [|cbn; now rewrite app_nil_r]. destruct (l_mgr s e) eqn:M; [cbn; now rewrite app_nil_r|].
    apply andb_prop in X. destruct X as [X _]. cbn in X. rewrite andb_true_r in X. apply memb_in, (v_lt I) in X.
    rewrite (inner_roots n n s gv e I X ltac:(lia) M). destruct (inner_inv n n s gv e I X ltac:(lia) M) as [-> _]. reflexivity.
  - cbn [l_step registers]. destruct (exist s [e]) eqn:X; [|cbn; now rewrite app_nil_r]. destruct (l_belong s e); [cbn; now rewrite app_nil_r|]. destruct (l_mgr s e) eqn:M; [cbn; now rewrite app_nil_r|].
    cbn in X. rewrite andb_true_r in X. apply memb_in, (v_lt I) in X. rewrite (inner_roots n n s gv e I X ltac:(lia) M). destruct (inner_inv n n s gv e I X ltac:(lia) M) as [-> _]. reflexivity.
Qed.
Lemma registered_snoc h : forall n a o b, length a = length h -> registered n (h ++ [o]) (a ++ [b]) = registered n h a ++ counted b (registers (n + length h) o).
Proof.
  induction h as [|x h IH]; intros n [|y a] o b L; try discriminate; cbn [app registered length].
  - rewrite Nat.add_0_r. destruct b; cbn; now rewrite ?app_nil_r.
  - injection L as L. rewrite (IH (S n) a o b L). rewrite Nat.add_succ_l, Nat.add_succ_r. destruct y; now rewrite ?app_assoc.
Qed.
Lemma answers_len h : length (l_answers h) = length h.
Proof. apply l_run_len. Qed.
Lemma cpp_snoc h o : cpp (h ++ [o]) -> cpp h /\ fine_op o.
Proof. intro C. split; [intros x X; apply C; apply in_app_iff; now left|apply C; apply in_app_iff; right; now left]. Qed.
Lemma roots_built h : cpp h -> l_roots (l_after h) = roots_of h.
Proof.
  unfold roots_of. induction h as [|o h IH] using rev_ind; intro C; [reflexivity|]. apply cpp_snoc in C. destruct C as [C F].
  rewrite l_after_snoc, l_answers_snoc, registered_snoc by apply answers_len. rewrite (step_roots _ _ _ _ (linv_all h C) F), (IH C). reflexivity.
Qed.
Definition built (h : list lop) (s : lst) (g : nat) : Prop :=
  match nth_error h g, nth_error (l_answers h) g with
  | Some (LGroup r els), Some LOk => l_kids s g = els /\ l_group s g = true /\ l_region s g = r /\ In g (l_all s)
  | Some LNode, Some LOk | Some LRegNew, Some LOk => l_kids s g = [] /\ In g (l_all s)
  | _, _ => l_kids s g = []
  end.
Lemma all_built h : cpp h -> forall g, built h (l_after h) g.
Proof.
  induction h as [|o h IH] using rev_ind; intros C g.
  - unfold built. now destruct g.
  - apply cpp_snoc in C. destruct C as [C F]. specialize (IH C g). pose proof (linv_all h C) as I. unfold built in *. rewrite l_after_snoc, l_answers_snoc.
    destruct (Nat.lt_trichotomy g (length h)) as [G|[->|G]].
    + rewrite (nth_error_app1 h) by exact G. rewrite nth_error_app1 by (rewrite answers_len; exact G). destruct (step_keeps _ _ _ o I F g G) as (-> & -> & -> & K).
      destruct (nth_error h g) as [[]|]; auto; destruct (nth_error (l_answers h) g) as [[]|]; auto; destruct IH; auto. destruct H0 as (? & ? & ?). auto.
    + rewrite nth_error_app2, Nat.sub_diag by lia. rewrite nth_error_app2, answers_len, Nat.sub_diag by (rewrite answers_len; lia). cbn [nth_error].
      pose proof (kids_new _ _ _ I) as KN. set (n := length h) in *. set (s := l_after h) in *. destruct o as [|r els| |e|e|e els|e]; try contradiction.
      * cbn. split; [exact KN|]. apply in_app_iff. right. now left.
      * destruct (exist s els) eqn:X; [|cbn [l_step]; rewrite X; exact KN]. destruct (group_fields n s _ r els I X) as (s' & -> & A1 & A2 & A3 & _ & _ & A6). cbn [fst snd].
        rewrite A1, A2, A3, A6, !upd_same, Nat.eqb_refl. do 3 (split; [reflexivity|]). apply in_app_iff. right. now left.
      * cbn [l_step]. destruct (inner_keeps n (l_make n false false s) n) as (-> & _ & _ & ->). cbn [l_make l_kids l_all]. rewrite KN. destruct (snd _); auto. split; [reflexivity|]. apply in_app_iff. right. now left.
      * cbn [l_step]. destruct (_ && _); [|exact KN]. destruct (l_mgr s e); [exact KN|]. destruct (inner_keeps n s e) as (-> & _ & _ & _). exact KN.
      * cbn [l_step]. destruct (exist s [e]); [|exact KN]. destruct (l_belong s e); [exact KN|]. destruct (l_mgr s e); [exact KN|]. destruct (inner_keeps n s e) as (-> & _ & _ & _). exact KN.
    + rewrite (proj2 (nth_error_None (h ++ [o]) g)) by (rewrite app_length; cbn; lia). pose proof (step_inv _ _ _ o I F) as I'.
      destruct (l_kids (fst (l_step (length h) (l_after h) o)) g) as [|c l] eqn:E; [reflexivity|]. assert (X : In c (l_kids (fst (l_step (length h) (l_after h) o)) g)) by (rewrite E; now left). apply (v_kid I') in X. lia.
Qed.
Lemma kids_made h g els : cpp h -> made_of h g els -> l_kids (l_after h) g = els.
Proof. intros C (r & E & A). pose proof (all_built h C g) as B. unfold built in B. rewrite E, A in B. apply B. Qed.
Lemma made_kids h g e : cpp h -> In e (l_kids (l_after h) g) -> made_of h g (l_kids (l_after h) g).
Proof.
  intros C H. pose proof (all_built h C g) as B. unfold built in B. destruct (nth_error h g) as [o|] eqn:E; [|rewrite B in H; destruct H].
  destruct o as [|r els| | | | | ]; destruct (nth_error (l_answers h) g) as [[]|] eqn:A; try (rewrite B in H; destruct H); try (destruct B as [B _]; rewrite B in H; destruct H).
  destruct B as [B _]. rewrite B. now exists r.
Qed.
(** Only what was registered, or is inside of it, has managers; all that is older than the newest such element. *)
Lemma mgr_old h : cpp h -> forall x, l_mgr (l_after h) x = true -> exists r, In r (l_roots (l_after h)) /\ x <= r.
Proof.
  induction h as [|o h IH] using rev_ind; intros C x X; [discriminate|]. apply cpp_snoc in C. destruct C as [C F]. specialize (IH C). pose proof (linv_all h C) as I. rewrite l_after_snoc in *.
  set (n := length h) in *. set (s := l_after h) in *.
  assert (IN : forall m s' e, l_mgr s' = l_mgr s -> l_roots s' = l_roots s -> down (l_kids s') -> e <= m -> l_mgr (fst (l_inner m s' e)) x = true -> exists r, In r (l_roots (fst (l_inner m s' e))) /\ x <= r).
  { intros m s' e E1 E2 D LE. unfold l_inner, give_managers. rewrite walk_w by (auto; lia). cbn. rewrite E1, E2. intro Y. apply orb_prop in Y. destruct Y as [Y|Y].
    - apply memb_in, w_le in Y; [|exact D]. exists e. split; [|exact Y]. unfold set_add. destruct (memb e (l_roots s)) eqn:M; [now apply memb_in|]. apply in_app_iff. right. now left.
    - destruct (IH x Y) as (r & R & LR). exists r. split; [|exact LR]. unfold set_add. destruct (memb e (l_roots s)); [exact R|]. apply in_app_iff. now left. }
  destruct o as [|r els| |e|e|e els|e]; try contradiction.
  - cbn in *. auto.
  - destruct (exist s els) eqn:E; [|cbn [l_step] in *; rewrite E in *; auto]. destruct (group_fields n s _ r els I E) as (s' & G & _ & _ & _ & A4 & A5 & _). rewrite G in *. cbn [fst] in *. rewrite A4 in X. rewrite A5. auto.
  - cbn [l_step] in *. eapply (IN n (l_make n false false s) n); [reflexivity|reflexivity|exact (inv_down n s _ I)|lia|exact X].
  - cbn [l_step] in *. destruct (exist s [e] && l_group s e) eqn:E; [|auto]. destruct (l_mgr s e) eqn:M; [auto|]. apply andb_prop in E. destruct E as [E _]. cbn in E. rewrite andb_true_r in E. apply memb_in, (v_lt I) in E.
    apply (IN n s e); [reflexivity|reflexivity|exact (inv_down n s _ I)|lia|exact X].
  - cbn [l_step] in *. destruct (exist s [e]) eqn:E; [|auto]. destruct (l_belong s e); [auto|]. destruct (l_mgr s e) eqn:M; [auto|]. cbn in E. rewrite andb_true_r in E. apply memb_in, (v_lt I) in E.
    apply (IN n s e); [reflexivity|reflexivity|exact (inv_down n s _ I)|lia|exact X].
Qed.
(** Acceptance. *)
Lemma accept_group h r els : cpp h -> (forall e, In e els -> In e (l_all (l_after h))) -> snd (l_step (length h) (l_after h) (LGroup r els)) = LOk.
Proof.
  intros C E. destruct (group_fields _ _ _ r els (linv_all h C)) as (s' & -> & _); [|reflexivity]. apply forallb_forall. intros e H. apply memb_in. now apply E.
Qed.
Lemma accept_type h g r els : cpp h -> made_of h g els -> nth_error h g = Some (LGroup r els) -> (forall x, In x (l_roots (l_after h)) -> x < g) -> snd (l_step (length h) (l_after h) (LRegType g)) = LOk.
Proof.
  intros C (r' & E & A) _ R. pose proof (all_built h C g) as B. unfold built in B. rewrite E, A in B. destruct B as (_ & G & _ & IN). cbn [l_step].
  assert (X : exist (l_after h) [g] = true) by (cbn; rewrite andb_true_r; now apply memb_in). rewrite X, G. cbn [andb].
  destruct (l_mgr (l_after h) g) eqn:M. { apply (mgr_old h C) in M. destruct M as (x & X1 & X2). apply R in X1. lia. }
  pose proof (linv_all h C) as I. apply (inner_inv _ _ _ _ g I); [apply (v_lt I); exact IN|lia|exact M].
Qed.
Lemma accept_new h : cpp h -> snd (l_step (length h) (l_after h) LRegNew) = LOk.
Proof.
  intro C. pose proof (linv_all h C) as I. cbn [l_step]. destruct (inner_inv _ (length h) _ _ (length h) (inv_make _ _ _ false false I)) as [A _]; [lia|lia| |exact A]. exact (mgr_new _ _ _ I).
Qed.
