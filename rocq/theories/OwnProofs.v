(** Proofs on ownership. *)
From Verif Require Export OwnSpec.
Local Open Scope nat_scope.
Local Open Scope list_scope.

(** ** Sets and dependencies *)
Lemma in_set_ins l x y : In y (set_ins l x) <-> In y l \/ y = x.
Proof. unfold set_ins. destruct (memb x l) eqn:M; [apply memb_in in M|rewrite in_app_iff; cbn]; firstorder congruence. Qed.
Lemma nd_snoc (l : list nat) x : NoDup l -> ~ In x l -> NoDup (l ++ [x]).
Proof. intros H N. induction H as [|y l H1 H2 IH]; cbn; [repeat constructor; auto|]. constructor; [rewrite in_app_iff; cbn; firstorder congruence|]. apply IH. cbn in N. tauto. Qed.
Lemma nd_set_ins l x : NoDup l -> NoDup (set_ins l x).
Proof. intros H. unfold set_ins. destruct (memb x l) eqn:M; [exact H|]. apply memb_false in M. apply nd_snoc; assumption. Qed.
Lemma in_fold_ins l : forall a y, In y (fold_left set_ins l a) <-> In y a \/ In y l.
Proof. induction l as [|x l IH]; intros a y; cbn; [tauto|]. rewrite IH, in_set_ins. firstorder congruence. Qed.
Lemma nd_fold_ins l : forall a, NoDup a -> NoDup (fold_left set_ins l a).
Proof. induction l as [|x l IH]; intros a H; cbn; [exact H|]. apply IH. now apply nd_set_ins. Qed.
Lemma in_ins l x y : In y (ins l x) <-> In y l \/ y = x.
Proof. unfold ins. destruct (memb x l) eqn:M; [apply memb_in in M|rewrite in_app_iff; cbn]; firstorder congruence. Qed.
Lemma in_somes l x : In x (somes l) <-> In (Some x) l.
Proof. induction l as [|[y|] l IH]; cbn; [tauto| |]; rewrite IH; firstorder congruence. Qed.

Lemma loop_succ this l : forall g g' ok, addDepend_loop g this l = (g', ok) -> forall e x, In x (e_succ (g' e)) -> In x (e_succ (g e)) \/ (x = this /\ In (Some e) l).
Proof.
  induction l as [|[d|] l IH]; intros g g' ok H e x I; cbn in H; [injection H as <- _; auto| |injection H as <- _; auto].
  destruct (negb _); [injection H as <- _; auto|]. destruct (Nat.eqb_spec this d) as [X|X].
  - destruct (IH _ _ _ H e x I) as [A|[A B]]; [auto|right; split; [exact A|now right]].
  - destruct (IH _ _ _ H e x I) as [A|[A B]]; [|right; split; [exact A|now right]].
    destruct (Nat.eq_dec e this) as [->|N1].
    + rewrite upd_same in A. cbn [set_dep e_succ] in A. rewrite upd_other in A by auto. auto.
    + rewrite upd_other in A by auto. destruct (Nat.eq_dec e d) as [->|N2].
      * rewrite upd_same in A. cbn [set_succ e_succ] in A. apply in_ins in A. destruct A as [A| ->]; [auto|]. right. split; [reflexivity|now left].
      * rewrite upd_other in A by auto. auto.
Qed.
Lemma info_succ g e l g' ok : add_info g e l = (g', ok) -> forall d x, In x (e_succ (g' d)) -> In x (e_succ (g d)) \/ (x = e /\ In (Some d) l).
Proof.
  unfold add_info, addDepend. intros H d x I. destruct (e_init _); [injection H as <- _; auto|]. destruct (_ && _); [injection H as <- _; auto|].
  destruct (addDepend_loop g e l) as [g1 ok1] eqn:E. destruct ok1.
  - injection H as <- _. apply (loop_succ _ _ _ _ _ E). destruct (Nat.eq_dec d e) as [->|N]; [rewrite upd_same in I|rewrite upd_other in I by auto]; exact I.
  - injection H as <- _. apply (loop_succ _ _ _ _ _ E). exact I.
Qed.

(** ** The invariant of tidy programs *)
Record own (s : ost) : Prop := {
  w_lt : forall e p, made_by s e p -> e < o_ne s /\ p < o_np s;
  w_fun : forall e p q, made_by s e p -> made_by s e q -> p = q;
  w_repo : forall p e, In e (o_repo s p) -> made_by s e p;
  w_rnd : forall p, NoDup (o_repo s p);
  w_mgr : forall p e, In e (o_mgr s p) -> made_by s e p;
  w_kids : forall e k, In k (o_kids s e) -> k < e /\ exists p, made_by s e p /\ made_by s k p;
  w_succ : forall e x, In x (e_succ (o_g s e)) -> exists p, made_by s e p /\ made_by s x p;
  w_edead : forall e, In e (o_edead s) <-> exists p, In p (o_pdead s) /\ In e (o_repo s p);
  w_end : NoDup (o_edead s);
  w_pnd : NoDup (o_pdead s);
  w_plt : forall p, In p (o_pdead s) -> p < o_np s;
  w_list : forall p, In p (o_list s) <-> p < o_np s /\ ~ In p (o_pdead s);
  w_lnd : NoDup (o_list s) }.

Lemma own_new : own o_new.
Proof. constructor; cbn; unfold made_by; cbn; try tauto; try (intros; apply NoDup_nil); intros; try (split; [tauto|]); try (intros [p [[] _]]); intros; lia. Qed.

Lemma nest_made s p : own s -> forall n e, made_by s e p -> forall x, In x (nest n (o_kids s) e) -> made_by s x p.
Proof.
  intros W. induction n as [|n IH]; intros e M x I; cbn in I; [destruct I|]. destruct I as [<-|I]; [exact M|].
  apply in_flat_map in I. destruct I as [k [K I]]. apply (IH k); [|exact I]. destruct (w_kids _ W _ _ K) as [_ [q [A B]]]. rewrite (w_fun _ W _ _ _ M A). exact B.
Qed.
Lemma alive_made s e p : own s -> made_by s e p -> ~ In p (o_pdead s) -> e_alive s e = true.
Proof.
  intros W M N. unfold e_alive. apply andb_true_intro. split; [apply Nat.ltb_lt; apply (w_lt _ W _ _ M)|]. apply negb_true_iff, memb_false. intros D. apply (w_edead _ W) in D.
  destruct D as [q [Dq R]]. apply (w_repo _ W) in R. rewrite (w_fun _ W _ _ _ M R) in N. auto.
Qed.
Lemma palive s p : p < o_np s -> ~ In p (o_pdead s) -> p_alive s p = true.
Proof. intros A B. unfold p_alive. apply andb_true_intro. split; [now apply Nat.ltb_lt|]. now apply negb_true_iff, memb_false. Qed.
Lemma used_alive s p : own s -> ~ In p (o_pdead s) -> forallb (e_alive s) (used s p) = true.
Proof.
  intros W N. apply forallb_forall. intros x I. apply (alive_made s x p W); [|exact N]. unfold used in I. apply in_app_or in I. destruct I as [I|I]; [now apply (w_repo _ W)|].
  apply in_flat_map in I. destruct I as [e [Ie I]]. apply in_flat_map in Ie. destruct Ie as [m [Im Ie]]. pose proof (nest_made s p W _ _ (w_mgr _ W _ _ Im) _ Ie) as M.
  destruct (w_succ _ W _ _ I) as [q [A B]]. rewrite (w_fun _ W _ _ _ M A). exact B.
Qed.
(** ** Steps *)
Lemma own_g s g : own s -> (forall d x, In x (e_succ (g d)) -> exists p, made_by s d p /\ made_by s x p) -> own (set_g s g).
Proof. intros W H. destruct W. constructor; cbn; auto. Qed.
Lemma own_info s e p l g ok : own s -> made_by s e p -> (forall d, In (Some d) l -> made_by s d p) -> add_info (o_g s) e l = (g, ok) -> own (set_g s g).
Proof.
  intros W M H E. apply own_g; [exact W|]. intros d x I. destruct (info_succ _ _ _ _ _ E d x I) as [A|[-> A]]; [exact (w_succ _ W _ _ A)|]. exists p. auto.
Qed.
Lemma own_reg s r : own s -> own (set_reg s r).
Proof. intros W. destruct W. constructor; cbn; auto. Qed.
Lemma own_pinit s r : own s -> own (set_pinit s r).
Proof. intros W. destruct W. constructor; cbn; auto. Qed.
Lemma own_einit s l b : own s -> own (set_einit s l b).
Proof. intros W. apply own_g; [exact W|]. intros d x I. destruct (memb d l); apply (w_succ _ W); exact I. Qed.
Lemma own_mgr s p e : own s -> made_by s e p -> own (set_mgr s (upd (o_mgr s) p (set_ins (o_mgr s p) e))).
Proof.
  intros W M. destruct W. constructor; cbn; auto. intros q x I. destruct (Nat.eq_dec q p) as [->|N]; [rewrite upd_same in I|rewrite upd_other in I by auto; exact (w_mgr0 _ _ I)].
  apply in_set_ins in I. destruct I as [I| ->]; [exact (w_mgr0 _ _ I)|exact M].
Qed.
Lemma own_repo s p l : own s -> ~ In p (o_pdead s) -> (forall e, In e l -> made_by s e p) -> own (set_repo s (upd (o_repo s) p (fold_left set_ins l (o_repo s p)))).
Proof.
  intros W N M. destruct W. constructor; cbn; auto.
  - intros q x I. destruct (Nat.eq_dec q p) as [->|N']; [rewrite upd_same in I|rewrite upd_other in I by auto; exact (w_repo0 _ _ I)]. apply in_fold_ins in I. destruct I as [I|I]; [exact (w_repo0 _ _ I)|exact (M _ I)].
  - intros q. destruct (Nat.eq_dec q p) as [->|N']; [rewrite upd_same; apply nd_fold_ins; auto|rewrite upd_other by auto; auto].
  - intros e. rewrite w_edead0. split; intros [q [A B]]; exists q; (split; [exact A|]); (rewrite upd_other in * by congruence); exact B.
Qed.
Lemma own_new_elem s p k : own s -> p < o_np s -> own (new_elem s p k).
Proof.
  intros W Hp. assert (F : forall q, ~ made_by s (o_ne s) q) by (intros q M; apply (w_lt _ W) in M; lia).
  assert (MK : forall e q, made_by s e q -> made_by (new_elem s p k) e q) by (intros; now right).
  constructor; unfold new_elem; cbn -[made_by]; try (destruct W; assumption).
  - intros e q [E|M]; [injection E as <- <-; lia|]. apply (w_lt _ W) in M. lia.
  - intros e q q' [E|M] [E'|M']; [congruence| | |exact (w_fun _ W _ _ _ M M')]; [injection E as <- <-|injection E' as <- <-]; exfalso; eapply F; eauto.
  - intros q e I. apply MK, (w_repo _ W), I.
  - intros q e I. apply MK, (w_mgr _ W), I.
  - intros e x I. destruct (Nat.eq_dec e (o_ne s)) as [->|N]; [rewrite upd_same in I; destruct I|rewrite upd_other in I by auto]. destruct (w_kids _ W _ _ I) as [L [q [A B]]]. split; [exact L|]. exists q. split; now apply MK.
  - intros e x I. destruct (Nat.eq_dec e (o_ne s)) as [->|N]; [rewrite upd_same in I; destruct I|rewrite upd_other in I by auto]. destruct (w_succ _ W _ _ I) as [q [A B]]. exists q. split; now apply MK.
Qed.
Lemma own_kid s g k p : own s -> made_by s g p -> made_by s k p -> k < g -> own (add_kid s g k).
Proof.
  intros W G K L. unfold add_kid. apply own_g.
  - destruct W. constructor; cbn; auto. intros e x I. destruct (Nat.eq_dec e g) as [->|N]; [rewrite upd_same in I|rewrite upd_other in I by auto; exact (w_kids0 _ _ I)].
    apply in_app_or in I. destruct I as [I|[<-|[]]]; [exact (w_kids0 _ _ I)|]. split; [exact L|]. exists p. auto.
  - cbn. intros d x I. apply (w_succ _ W). destruct (Nat.eq_dec d k) as [->|N]; [rewrite upd_same in I|rewrite upd_other in I by auto]; exact I.
Qed.
Lemma own_add_kids g p l : forall s, own s -> made_by s g p -> (forall k, In k l -> made_by s k p /\ k < g) -> own (fold_left (fun x k => add_kid x g k) l s).
Proof.
  induction l as [|k l IH]; intros s W G H; cbn; [exact W|]. apply IH; [apply (own_kid s g k p W G); apply H; now left|exact G|]. intros x I. apply H. now right.
Qed.
Lemma kids_frame g l : forall s, let s' := fold_left (fun x k => add_kid x g k) l s in o_made s' = o_made s /\ o_ne s' = o_ne s /\ o_np s' = o_np s /\ o_repo s' = o_repo s /\ o_pdead s' = o_pdead s /\ o_edead s' = o_edead s /\ o_mgr s' = o_mgr s /\ o_list s' = o_list s.
Proof. induction l as [|k l IH]; intros s; cbn; [tauto|]. specialize (IH (add_kid s g k)). cbn in IH. exact IH. Qed.

(** What never shrinks. *)
Definition grows (s s' : ost) : Prop := (forall e p, made_by s e p -> made_by s' e p) /\ (forall p e, In e (o_repo s p) -> In e (o_repo s' p)).
Lemma grows_refl s : grows s s. Proof. split; auto. Qed.
Lemma grows_trans a b c : grows a b -> grows b c -> grows a c. Proof. intros [A B] [C D]. split; auto. Qed.
Lemma grows_ins s p l : grows s (set_repo s (upd (o_repo s) p (fold_left set_ins l (o_repo s p)))).
Proof. split; [auto|]. cbn. intros q e I. destruct (Nat.eq_dec q p) as [->|N]; [rewrite upd_same; apply in_fold_ins; auto|rewrite upd_other by auto; exact I]. Qed.

(** A registering call keeps the invariant, and what it returns is in the repository. *)
Definition fine (s : ost) (p : nat) (y : ores * ost) : Prop :=
  own (snd y) /\ grows s (snd y) /\ (forall e, fst y = OOk (Some e) -> In e (o_repo (snd y) p)).
Lemma fine_err s p r : own s -> r <> OOk None -> (forall e, r <> OOk (Some e)) -> fine s p (r, s).
Proof. intros W A B. split; [exact W|]. split; [apply grows_refl|]. intros e H. cbn in H. exfalso. exact (B e H). Qed.
Lemma fine_inner s p e deps : own s -> ~ In p (o_pdead s) -> made_by s e p -> (forall d, In (Some d) deps -> made_by s d p) -> fine s p (inner_register s p e deps).
Proof.
  intros W N M D. unfold inner_register. destruct (o_pinit s p); [apply fine_err; [exact W| |]; discriminate|].
  destruct (add_info (o_g s) e deps) as [g1 ok] eqn:E. pose proof (own_info s e p deps g1 ok W M D E) as W1. destruct ok; cbn [negb].
  2:{ split; [exact W1|]. split; [split; auto|]. discriminate. }
  unfold add_managers. match goal with |- context [set_reg (set_g s g1) ?f] => set (s2 := set_reg (set_g s g1) f) end.
  assert (W2 : own s2) by (now apply own_reg). destruct (forallb _ _); cbn [negb].
  2:{ split; [exact W2|]. split; [split; auto|]. discriminate. }
  set (s3 := set_mgr s2 (upd (o_mgr s2) p (set_ins (o_mgr s2 p) e))). assert (W3 : own s3) by (now apply own_mgr).
  split; [|split].
  - apply (own_repo s3 p [e] W3 N). intros x [<-|[]]. exact M.
  - apply (grows_ins s3 p [e]).
  - intros x X. cbn in X. injection X as <-. cbn. rewrite upd_same. apply in_set_ins. auto.
Qed.
Lemma fine_step s p y s' : grows s s' -> fine s' p y -> fine s p y.
Proof. intros G [A [B C]]. split; [exact A|]. split; [exact (grows_trans _ _ _ G B)|exact C]. Qed.
Lemma grows_new s p k : grows s (new_elem s p k).
Proof. split; cbn; [intros; now right|auto]. Qed.

Lemma fine_create s s1 p e deps g1 ok (r : ores) : own s1 -> grows s s1 -> ~ In p (o_pdead s1) -> made_by s1 e p -> (forall d, In (Some d) deps -> made_by s1 d p) -> add_info (o_g s1) e deps = (g1, ok) ->
  fine s p (if negb ok then (OThrow, set_g s1 g1) else (OOk (Some e), set_repo (set_g s1 g1) (upd (o_repo s1) p (set_ins (o_repo s1 p) e)))).
Proof.
  intros W G N M D E. pose proof (own_info s1 e p deps g1 ok W M D E) as W1. destruct ok; cbn [negb].
  - split; [|split].
    + apply (own_repo (set_g s1 g1) p [e] W1 N). intros x [<-|[]]. exact M.
    + apply (grows_trans _ _ _ G). apply (grows_ins (set_g s1 g1) p [e]).
    + intros x X. cbn in X. injection X as <-. cbn. rewrite upd_same. apply in_set_ins. auto.
  - split; [exact W1|]. split; [exact G|]. discriminate.
Qed.

(** ** Deletion *)
Lemma del_elems_ok l : forall s, NoDup l -> (forall e, In e l -> e_alive s e = true) -> del_elems s l = Some (set_edead s (rev l ++ o_edead s)).
Proof.
  induction l as [|e l IH]; intros s ND A; cbn; [destruct s; reflexivity|]. inversion ND as [|? ? N1 N2]; subst. rewrite (A e (or_introl eq_refl)).
  rewrite IH; [cbn; rewrite <- app_assoc; reflexivity|exact N2|]. intros x I. pose proof (A x (or_intror I)) as Q. unfold e_alive in *. cbn [set_edead o_ne o_edead]. apply andb_true_iff in Q. destruct Q as [Q1 Q2]. rewrite Q1. cbn [andb].
  apply negb_true_iff, memb_false in Q2. apply negb_true_iff, memb_false. intros [X|X]; [subst; auto|auto].
Qed.
Lemma in_filter_ne p q l : In q (filter (fun q => negb (Nat.eqb q p)) l) <-> In q l /\ q <> p.
Proof. rewrite filter_In, negb_true_iff, Nat.eqb_neq. reflexivity. Qed.
(** The state after deleting [p], list aside. *)
Definition gone (s : ost) (p : nat) : ost := set_edead (set_pdead s (p :: o_pdead s)) (rev (o_repo s p) ++ o_edead s).
(** The invariant without the factory list. *)
Definition own' (s : ost) : Prop := own (set_list s (filter (fun p => negb (memb p (o_pdead s))) (seq 0 (o_np s)))).
Lemma own_own' s : own s -> own' s.
Proof.
  intros W. unfold own'. destruct W. constructor; cbn; auto.
  - intros p. rewrite filter_In, in_seq, negb_true_iff. split; [intros [A B]; apply memb_false in B; split; [lia|auto]|intros [A B]; split; [lia|now apply memb_false]].
  - apply NoDup_filter, seq_NoDup.
Qed.
Lemma own'_own s : own' s -> (forall p, In p (o_list s) <-> p < o_np s /\ ~ In p (o_pdead s)) -> NoDup (o_list s) -> own s.
Proof. unfold own'. intros W A B. destruct W. constructor; cbn in *; auto. Qed.
Lemma own'_list s l : own' s -> own' (set_list s l).
Proof. unfold own'. cbn. intros W. exact W. Qed.
Lemma nd_app_2 (a b : list nat) : NoDup a -> NoDup b -> (forall x, In x a -> ~ In x b) -> NoDup (a ++ b).
Proof. intros A B C. induction A as [|x a N A IH]; cbn; [exact B|]. constructor; [rewrite in_app_iff; intros [X|X]; [auto|apply (C x); [now left|exact X]]|]. apply IH. intros y I. apply C. now right. Qed.
Lemma del_pipe_ok s p : own' s -> p < o_np s -> ~ In p (o_pdead s) -> del_pipe s p = Some (gone s p) /\ own' (gone s p).
Proof.
  intros W Hp N. set (s0 := set_list s (filter (fun p => negb (memb p (o_pdead s))) (seq 0 (o_np s)))) in W.
  assert (AL : forall e, In e (o_repo s p) -> e_alive s e = true) by (intros e I; exact (alive_made s0 e p W (w_repo _ W p e I) N)).
  split.
  - unfold del_pipe. rewrite (palive s p Hp N). rewrite del_elems_ok; [reflexivity|exact (w_rnd _ W p)|exact AL].
  - unfold own', gone. constructor; cbn [set_list set_edead set_pdead o_ne o_np o_made o_edead o_pdead o_list o_repo o_mgr o_pinit o_g o_kids o_kind o_reg]; try (destruct W; assumption).
    + intros e. rewrite in_app_iff, <- in_rev. rewrite (w_edead _ W e). cbn. split; [intros [I|[q [A B]]]; [exists p|exists q]; auto|]. intros [q [[<-|A] B]]; [auto|]. right. eauto.
    + apply nd_app_2; [apply NoDup_rev, (w_rnd _ W p)|exact (w_end _ W)|]. intros x I D. apply in_rev in I. pose proof (AL x I) as Q. unfold e_alive in Q. apply andb_true_iff in Q. destruct Q as [_ Q]. apply negb_true_iff, memb_false in Q. auto.
    + constructor; [exact N|exact (w_pnd _ W)].
    + intros q [<-|I]; [exact Hp|exact (w_plt _ W q I)].
    + intros q. rewrite filter_In, in_seq, negb_true_iff. split; [intros [A B]; apply memb_false in B; split; [lia|exact B]|intros [A B]; split; [lia|now apply memb_false]].
    + apply NoDup_filter, seq_NoDup.
Qed.
Lemma del_pipes_ok l : forall s, own' s -> NoDup l -> (forall p, In p l -> p < o_np s /\ ~ In p (o_pdead s)) ->
  exists s', del_pipes s l = Some s' /\ own' s' /\ o_np s' = o_np s /\ o_made s' = o_made s /\ o_repo s' = o_repo s /\ (forall p, In p (o_pdead s') <-> In p l \/ In p (o_pdead s)).
Proof.
  induction l as [|p l IH]; intros s W ND A; cbn [del_pipes]; [exists s; do 5 (split; [easy|]); cbn; tauto|]. inversion ND as [|? ? N1 N2]; subst. destruct (A p (or_introl eq_refl)) as [Hp Np].
  destruct (del_pipe_ok s p W Hp Np) as [E W1]. rewrite E. destruct (IH (gone s p) W1 N2) as [s' [E' [W' [F1 [F2 [F3 F4]]]]]].
  - intros q I. destruct (A q (or_intror I)) as [X Y]. cbn. split; [exact X|]. intros [Z|Z]; [subst; auto|auto].
  - exists s'. split; [exact E'|]. split; [exact W'|]. do 3 (split; [assumption|]). intros q. rewrite F4. cbn. split; [intros [X|[X|X]]; auto|intros [[X|X]|X]; auto].
Qed.

(** ** A tidy call is not bad and keeps the invariant *)
Lemma tidy_step s c : own s -> tidy_call s c -> exists x s', ostep s c = ORet x s' /\ own s' /\ grows s s' /\ (forall e, x = OOk (Some e) -> exists p, In e (o_repo s' p)).
Proof.
  intros W [T1 T2]. assert (DEAD : forall p, p_deletions s p = 0 -> ~ In p (o_pdead s)) by (intros p H I; apply (count_occ_In Nat.eq_dec) in I; unfold p_deletions in H; lia).
  unfold ostep. assert (P : pipe_ok s c = true).
  { unfold pipe_ok. destruct (on_pipe c) as [p|]; [|reflexivity]. destruct (T1 p (or_introl eq_refl)). apply palive; auto. }
  rewrite P. cbn [negb]. assert (Nm : forallb (e_alive s) (names c) = true).
  { apply forallb_forall. intros e I. destruct (on_pipe c) as [p|] eqn:O; [|destruct c; discriminate || destruct I]. destruct (T1 p (or_introl eq_refl)). apply (alive_made s e p W); [apply (T2 p e eq_refl I)|auto]. }
  rewrite Nm. cbn [negb].
  assert (FIN : forall p y, fine s p y -> exists x s', ret y = ORet x s' /\ own s' /\ grows s s' /\ (forall e, x = OOk (Some e) -> exists p, In e (o_repo s' p))).
  { intros p [x s'] [A [B C]]. exists x, s'. split; [reflexivity|]. split; [exact A|]. split; [exact B|]. intros e ->. exists p. exact (C e eq_refl). }
  destruct c as [|[p|]| |p k d|p e t d|p k e d|p d|p k d|p w|p|p w]; cbn [names on_pipe] in *.
  - eexists _, _. split; [reflexivity|]. assert (R0 : forall l, In l (o_repo s (o_np s)) -> False) by (intros l I; apply (w_repo _ W), (w_lt _ W) in I; lia).
    split; [|split; [|discriminate]].
    + constructor; cbn; try (destruct W; assumption).
      * intros e p M. apply (w_lt _ W) in M. lia.
      * intros p e I. destruct (Nat.eq_dec p (o_np s)) as [->|N]; [rewrite upd_same in I; destruct I|rewrite upd_other in I by auto; now apply (w_repo _ W)].
      * intros p. destruct (Nat.eq_dec p (o_np s)) as [->|N]; [rewrite upd_same; constructor|rewrite upd_other by auto; apply (w_rnd _ W)].
      * intros p e I. destruct (Nat.eq_dec p (o_np s)) as [->|N]; [rewrite upd_same in I; destruct I|rewrite upd_other in I by auto; now apply (w_mgr _ W)].
      * intros e. rewrite (w_edead _ W). split; intros [q [A B]]; exists q; (split; [exact A|]); pose proof (w_plt _ W q A); rewrite upd_other in * by lia; exact B.
      * intros q I. pose proof (w_plt _ W q I). lia.
      * intros q. rewrite in_app_iff, (w_list _ W). cbn. split; [intros [[A B]|[<-|[]]]; split; [lia|exact B|lia|intros X; pose proof (w_plt _ W _ X); lia]|]. intros [A B]. destruct (Nat.eq_dec q (o_np s)); [right; left; congruence|left; split; [lia|exact B]].
      * apply nd_snoc; [exact (w_lnd _ W)|]. intros I. apply (w_list _ W) in I. lia.
    + split; [auto|]. cbn. intros p e I. destruct (Nat.eq_dec p (o_np s)) as [->|N]; [destruct (R0 _ I)|rewrite upd_other by auto; exact I].
  - destruct (T1 p (or_intror eq_refl)) as [A B]. set (s0 := set_list s _). destruct (del_pipe_ok s0 p (own'_list _ _ (own_own' _ W)) A (DEAD _ B)) as [E W']. rewrite E. eexists _, _. split; [reflexivity|].
    split; [|split; [split; auto|discriminate]]. apply own'_own; [exact W'| |]; cbn.
    + intros q. rewrite in_filter_ne, (w_list _ W). split; [intros [[X Y] Z]; split; [exact X|intros [V|V]; [congruence|auto]]|intros [X Y]; split; [split; [exact X|tauto]|intros ->; tauto]].
    + apply NoDup_filter, (w_lnd _ W).
  - eexists _, _. split; [reflexivity|]. split; [exact W|]. split; [apply grows_refl|discriminate].
  - destruct (del_pipes_ok (o_list s) s (own_own' _ W) (w_lnd _ W) (fun p I => proj1 (w_list _ W p) I)) as [s' [E [W' [F1 [F2 [F3 F4]]]]]]. rewrite E. eexists _, _. split; [reflexivity|].
    split; [|split; [split; [unfold made_by; cbn; rewrite F2; auto|cbn; rewrite F3; auto]|discriminate]]. apply own'_own; [apply own'_list, W'| |constructor]. cbn. intros p. rewrite F1, F4, (w_list _ W). split; [tauto|]. intros [A B]. destruct (in_dec Nat.eq_dec p (o_pdead s)); tauto.
  - destruct (T1 p (or_introl eq_refl)) as [A B]. apply (FIN p). unfold reg_new. destruct (o_pinit s p); [apply fine_err; [exact W| |]; discriminate|]. destruct (okind_eqb k KGroup); [apply fine_err; [exact W| |]; discriminate|].
    apply (fine_step s p _ (new_elem s p k) (grows_new s p k)). apply fine_inner; [now apply own_new_elem|exact (DEAD _ B)|now left|]. intros x I. right. apply (T2 p x eq_refl). now apply in_somes.
  - destruct (T1 p (or_introl eq_refl)) as [A B]. apply (FIN p). unfold reg_group. destruct (o_pinit s p); [apply fine_err; [exact W| |]; discriminate|]. destruct e as [e|]; [|apply fine_err; [exact W| |]; discriminate].
    destruct (o_reg s e); [apply fine_err; [exact W| |]; discriminate|]. destruct (negb _); [apply fine_err; [exact W| |]; discriminate|].
    apply fine_inner; [exact W|exact (DEAD _ B)|apply (T2 p e eq_refl); now left|]. intros x I. apply (T2 p x eq_refl). right. now apply in_somes.
  - destruct (T1 p (or_introl eq_refl)) as [A B]. apply (FIN p). unfold reg_old. destruct (o_pinit s p); [apply fine_err; [exact W| |]; discriminate|]. destruct e as [e|]; [|apply fine_err; [exact W| |]; discriminate].
    destruct (negb _); [apply fine_err; [exact W| |]; discriminate|]. destruct (e_belong _); [apply fine_err; [exact W| |]; discriminate|]. destruct (o_reg s e); [apply fine_err; [exact W| |]; discriminate|].
    apply fine_inner; [exact W|exact (DEAD _ B)|apply (T2 p e eq_refl); now left|]. intros x I. apply (T2 p x eq_refl). right. now apply in_somes.
  - destruct (T1 p (or_introl eq_refl)) as [A B]. apply (FIN p). unfold mk_node. destruct (o_pinit s p); [apply fine_err; [exact W| |]; discriminate|]. cbn zeta. destruct (add_info _ _ _) as [g1 ok] eqn:E.
    apply (fine_create s (new_elem s p KNode) p (o_ne s) d g1 ok OThrow); [now apply own_new_elem|apply grows_new|exact (DEAD _ B)|now left| |exact E]. intros x I. right. apply (T2 p x eq_refl). now apply in_somes.
  - destruct (T1 p (or_introl eq_refl)) as [A B]. apply (FIN p). unfold mk_group. destruct (o_pinit s p); [apply fine_err; [exact W| |]; discriminate|]. destruct (_ || _); [apply fine_err; [exact W| |]; discriminate|]. cbn zeta.
    set (s1 := fold_left _ _ _). destruct (add_info _ _ _) as [g1 ok] eqn:E. destruct (kids_frame (o_ne s) (somes k) (new_elem s p KGroup)) as [F1 [F2 [F3 [F4 [F5 _]]]]]. fold s1 in F1, F2, F3, F4, F5.
    assert (T3 : forall x, In (Some x) k \/ In (Some x) d -> made_by s x p) by (intros x I; apply (T2 p x eq_refl); apply in_somes, in_or_app; exact I).
    apply (fine_create s s1 p (o_ne s) d g1 ok OThrow); [| | | | |exact E].
    + apply (own_add_kids (o_ne s) p); [now apply own_new_elem|now left|]. intros x I. apply in_somes in I. pose proof (T3 x (or_introl I)) as M. split; [now right|apply (w_lt _ W _ _ M)].
    + split; [unfold made_by; rewrite F1; intros; now right|rewrite F4; auto].
    + rewrite F5. exact (DEAD _ B).
    + unfold made_by. rewrite F1. now left.
    + intros x I. unfold made_by. rewrite F1. right. apply T3. now right.
  - destruct (T1 p (or_introl eq_refl)) as [A B]. destruct (o_pinit s p); [eexists _, _; split; [reflexivity|]; split; [exact W|]; split; [apply grows_refl|discriminate]|]. cbn zeta.
    assert (W1 : own (fetch_all s p)).
    { apply own_repo; [exact W|exact (DEAD _ B)|]. intros e I. apply in_flat_map in I. destruct I as [m [Im I]]. exact (nest_made s p W _ _ (w_mgr _ W _ _ Im) _ I). }
    pose proof (used_alive (fetch_all s p) p W1 (DEAD _ B)) as U. change (e_alive (fetch_all s p)) with (e_alive s) in U. rewrite U. cbn [negb].
    assert (G : grows s (fetch_all s p)) by apply grows_ins.
    destruct w as [l|]; eexists _, _; (split; [reflexivity|]); (split; [|split; [exact G|discriminate]]); [|apply own_pinit]; apply own_einit, W1.
  - destruct (T1 p (or_introl eq_refl)) as [A B]. destruct (negb (o_pinit s p)); [|rewrite (used_alive s p W (DEAD _ B)); cbn [negb]]; eexists _, _; (split; [reflexivity|]); (split; [exact W|]); (split; [apply grows_refl|discriminate]).
  - destruct (T1 p (or_introl eq_refl)) as [A B]. destruct (negb (o_pinit s p)); [eexists _, _; split; [reflexivity|]; split; [exact W|]; split; [apply grows_refl|discriminate]|]. rewrite (used_alive s p W (DEAD _ B)). cbn [negb].
    destruct w as [l|]; eexists _, _; (split; [reflexivity|]); (split; [|split; [split; auto|discriminate]]); [|apply own_pinit]; apply own_einit, W.
Qed.
Lemma tidy_run cs : forall s, own s -> tidy s cs -> exists xs s', orun s cs = Some (xs, s') /\ own s' /\ grows s s' /\ (forall e, In (OOk (Some e)) xs -> exists p, In e (o_repo s' p)).
Proof.
  induction cs as [|c r IH]; intros s W T; cbn; [exists [], s; split; [reflexivity|]; split; [exact W|]; split; [apply grows_refl|]; intros e []|].
  destruct T as [T1 T2]. destruct (tidy_step s c W T1) as [x [s1 [E [W1 [G1 A1]]]]]. rewrite E. destruct (IH s1 W1 (T2 _ _ E)) as [xs [s2 [E2 [W2 [G2 A2]]]]]. rewrite E2.
  exists (x :: xs), s2. split; [reflexivity|]. split; [exact W2|]. split; [exact (grows_trans _ _ _ G1 G2)|]. intros e [X|X]; [|auto]. destruct (A1 e X) as [p I]. exists p. apply G2, I.
Qed.
Lemma nd_count (l : list nat) x : NoDup l -> count_occ Nat.eq_dec l x = if memb x l then 1 else 0.
Proof.
  intros H. destruct (memb x l) eqn:M; [apply memb_in in M|apply memb_false in M; now apply count_occ_not_In].
  pose proof (proj1 (NoDup_count_occ Nat.eq_dec l) H x). apply (count_occ_In Nat.eq_dec) in M. lia.
Qed.

(** ** Elements nobody owns *)
Record absent (s : ost) (e : nat) : Prop := {
  b_repo : forall p, ~ In e (o_repo s p); b_mgr : forall p, ~ In e (o_mgr s p); b_kids : forall g, ~ In e (o_kids s g); b_dead : ~ In e (o_edead s) }.
Lemma del_elems_inv l : forall s s', del_elems s l = Some s' -> s' = set_edead s (rev l ++ o_edead s) /\ forall e, In e l -> ~ In e (o_edead s).
Proof.
  induction l as [|x l IH]; intros s s' H; cbn [del_elems] in H; [injection H as <-; split; [destruct s; reflexivity|intros e []]|]. destruct (e_alive s x) eqn:A; [|discriminate].
  destruct (IH _ _ H) as [-> B]. cbn. rewrite <- app_assoc. split; [reflexivity|]. unfold e_alive in A. apply andb_true_iff in A. destruct A as [_ A]. apply negb_true_iff, memb_false in A.
  intros e [<-|I]; [exact A|]. intros D. apply (B e I). now right.
Qed.
Lemma del_pipe_inv s p s' : del_pipe s p = Some s' -> s' = gone s p /\ p_alive s p = true /\ forall e, In e (o_repo s p) -> ~ In e (o_edead s).
Proof. unfold del_pipe. destruct (p_alive s p); [|discriminate]. intros H. apply del_elems_inv in H. cbn in H. destruct H as [-> H]. split; [reflexivity|auto]. Qed.
Lemma absent_gone s p e : absent s e -> absent (gone s p) e.
Proof. intros [A B C D]. constructor; cbn; auto. rewrite in_app_iff, <- in_rev. intros [X|X]; [exact (A p X)|auto]. Qed.
Lemma absent_del_pipes e l : forall s s', absent s e -> del_pipes s l = Some s' -> absent s' e.
Proof.
  induction l as [|p l IH]; intros s s' A H; cbn in H; [injection H as <-; exact A|]. destruct (del_pipe s p) as [s1|] eqn:E; [|discriminate]. apply del_pipe_inv in E. destruct E as [-> _].
  exact (IH _ _ (absent_gone _ _ _ A) H).
Qed.
Lemma absent_g s g e : absent s e -> absent (set_g s g) e. Proof. intros [A B C D]. constructor; auto. Qed.
Lemma absent_reg s g e : absent s e -> absent (set_reg s g) e. Proof. intros [A B C D]. constructor; auto. Qed.
Lemma absent_list s g e : absent s e -> absent (set_list s g) e. Proof. intros [A B C D]. constructor; auto. Qed.
Lemma absent_pinit s g e : absent s e -> absent (set_pinit s g) e. Proof. intros [A B C D]. constructor; auto. Qed.
Lemma absent_mgr s p x e : absent s e -> x <> e -> absent (set_mgr s (upd (o_mgr s) p (set_ins (o_mgr s p) x))) e.
Proof. intros [A B C D] N. constructor; cbn; auto. intros q. destruct (Nat.eq_dec q p) as [->|X]; [rewrite upd_same, in_set_ins|rewrite upd_other by auto; auto]. intros [I|I]; [exact (B p I)|congruence]. Qed.
Lemma absent_repo s p l e : absent s e -> ~ In e l -> absent (set_repo s (upd (o_repo s) p (fold_left set_ins l (o_repo s p)))) e.
Proof. intros [A B C D] N. constructor; cbn; auto. intros q. destruct (Nat.eq_dec q p) as [->|X]; [rewrite upd_same, in_fold_ins|rewrite upd_other by auto; auto]. intros [I|I]; [exact (A p I)|auto]. Qed.
Lemma absent_new s p k e : absent s e -> absent (new_elem s p k) e.
Proof. intros [A B C D]. constructor; cbn; auto. intros g. destruct (Nat.eq_dec g (o_ne s)) as [->|X]; [rewrite upd_same; auto|rewrite upd_other by auto; auto]. Qed.
Lemma absent_kids g e l : forall s, absent s e -> ~ In e l -> absent (fold_left (fun x k => add_kid x g k) l s) e.
Proof.
  induction l as [|k l IH]; intros s A N; cbn [fold_left]; [exact A|]. apply IH; [|intros X; apply N; now right]. unfold add_kid. apply absent_g. destruct A as [A B C D]. constructor; cbn; auto.
  intros g'. destruct (Nat.eq_dec g' g) as [->|X]; [rewrite upd_same, in_app_iff|rewrite upd_other by auto; auto]. intros [I|[I|[]]]; [exact (C g I)|]. apply N. now left.
Qed.
Lemma absent_inner s p x d e : absent s e -> fst (inner_register s p x d) <> OOk (Some e) -> absent (snd (inner_register s p x d)) e.
Proof.
  intros A. unfold inner_register. destruct (o_pinit s p); [auto|]. destruct (add_info _ _ _) as [g1 ok]. destruct ok; cbn [negb]; [|intros _; now apply absent_g]. unfold add_managers.
  destruct (forallb _ _); cbn [negb]; [|intros _; now apply absent_reg, absent_g]. intros N. assert (X : x <> e) by (intros ->; apply N; reflexivity). cbn [snd].
  match goal with |- absent (set_repo ?s3 _) e => apply (absent_repo s3 p [x]) end; [apply absent_mgr; [now apply absent_reg, absent_g|exact X]|]. intros [Y|[]]. auto.
Qed.
Lemma absent_nest s e : absent s e -> forall n m, m <> e -> ~ In e (nest n (o_kids s) m).
Proof.
  intros A. induction n as [|n IH]; intros m N I; cbn in I; [exact I|]. destruct I as [I|I]; [congruence|]. apply in_flat_map in I. destruct I as [k [K I]]. apply (IH k); [|exact I]. intros ->. exact (b_kids _ _ A m K).
Qed.
Lemma absent_step s c x s' e : ostep s c = ORet x s' -> absent s e -> ~ In e (names c) -> x <> OOk (Some e) -> absent s' e.
Proof.
  unfold ostep. intros H A N X. destruct (negb (pipe_ok s c)); [discriminate|]. destruct (negb _); [discriminate|].
  destruct c as [|[p|]| |p k d|p y t d|p k y d|p d|p k d|p w|p|p w]; cbn [names] in N.
  - injection H as <- <-. destruct A as [A B C D]. constructor; cbn; auto; intros q; (destruct (Nat.eq_dec q (o_np s)) as [->|Y]; [rewrite upd_same; auto|rewrite upd_other by auto; auto]).
  - destruct (del_pipe _ _) as [s1|] eqn:E; [|discriminate]. injection H as <- <-. apply del_pipe_inv in E. destruct E as [-> _]. now apply absent_gone, absent_list.
  - injection H as <- <-. exact A.
  - destruct (del_pipes _ _) as [s1|] eqn:E; [|discriminate]. injection H as <- <-. apply absent_list. exact (absent_del_pipes _ _ _ _ A E).
  - unfold ret in H. injection H as <- <-. revert X. unfold reg_new. destruct (o_pinit s p); [auto|]. destruct (okind_eqb k KGroup); [auto|]. apply absent_inner. now apply absent_new.
  - unfold ret in H. injection H as <- <-. revert X. unfold reg_group. destruct (o_pinit s p); [auto|]. destruct y as [y|]; [|auto]. destruct (o_reg s y); [auto|]. destruct (negb _); [auto|]. now apply absent_inner.
  - unfold ret in H. injection H as <- <-. revert X. unfold reg_old. destruct (o_pinit s p); [auto|]. destruct y as [y|]; [|auto]. destruct (negb _); [auto|]. destruct (e_belong _); [auto|]. destruct (o_reg s y); [auto|]. now apply absent_inner.
  - unfold ret in H. injection H as <- <-. revert X. unfold mk_node. destruct (o_pinit s p); [auto|]. cbn zeta. destruct (add_info _ _ _) as [g1 ok]. destruct ok; cbn [negb fst snd]; [|intros _; now apply absent_g, absent_new].
    intros X. apply (absent_repo (set_g (new_elem s p KNode) g1) p [o_ne s]); [now apply absent_g, absent_new|]. intros [Y|[]]. congruence.
  - unfold ret in H. injection H as <- <-. revert X. unfold mk_group. destruct (o_pinit s p); [auto|]. destruct (_ || _); [auto|]. cbn zeta. set (s1 := fold_left _ _ _).
    assert (A1 : absent s1 e) by (apply absent_kids; [now apply absent_new|]; intros I; apply N; apply in_somes in I; apply in_somes, in_or_app; auto).
    destruct (add_info _ _ _) as [g1 ok]. destruct ok; cbn [negb fst snd]; [|intros _; now apply absent_g]. intros X. apply (absent_repo (set_g s1 g1) p [o_ne s]); [now apply absent_g|]. intros [Y|[]]. congruence.
  - destruct (o_pinit s p); [injection H as <- <-; exact A|]. cbn zeta in H. destruct (negb _); [discriminate|].
    assert (A1 : absent (fetch_all s p) e).
    { apply absent_repo; [exact A|]. intros I. apply in_flat_map in I. destruct I as [m [Im I]]. revert I. apply absent_nest; [exact A|]. intros ->. exact (b_mgr _ _ A p Im). }
    destruct w; injection H as <- <-; [|apply absent_pinit]; now apply absent_g.
  - destruct (negb (o_pinit s p)); [injection H as <- <-; exact A|]. destruct (negb _); [discriminate|]. injection H as <- <-. exact A.
  - destruct (negb (o_pinit s p)); [injection H as <- <-; exact A|]. destruct (negb _); [discriminate|]. destruct w; injection H as <- <-; [|apply absent_pinit]; now apply absent_g.
Qed.
(** Allocation counters. *)
Lemma del_frame l : forall s s', del_pipes s l = Some s' -> o_ne s' = o_ne s /\ o_np s' = o_np s /\ o_made s' = o_made s /\ o_repo s' = o_repo s /\ (forall p, In p (o_pdead s) -> In p (o_pdead s')) /\ (forall p, In p l -> In p (o_pdead s')).
Proof.
  induction l as [|p l IH]; intros s s' H; cbn in H; [injection H as <-; repeat split; auto; intros p []|]. destruct (del_pipe s p) as [s1|] eqn:E; [|discriminate]. apply del_pipe_inv in E. destruct E as [-> _].
  destruct (IH _ _ H) as [A [B [C [D [F G]]]]]. cbn in *. do 4 (split; [assumption|]). split; [auto|]. intros q [<-|I]; auto.
Qed.
Lemma inner_ne s p x d : o_ne (snd (inner_register s p x d)) = o_ne s /\ forall e, fst (inner_register s p x d) = OOk (Some e) -> e = x.
Proof.
  unfold inner_register. destruct (o_pinit s p); [split; [reflexivity|discriminate]|]. destruct (add_info _ _ _) as [g1 ok]. destruct ok; cbn [negb]; [|split; [reflexivity|discriminate]]. unfold add_managers.
  destruct (forallb _ _); cbn [negb]; (split; [reflexivity|]); cbn; intros e H; congruence.
Qed.
Lemma step_ne s c x s' : ostep s c = ORet x s' -> o_ne s <= o_ne s' /\ (forall e, x = OOk (Some e) -> e < o_ne s') /\ (forall e, In e (names c) -> e < o_ne s).
Proof.
  unfold ostep. intros H. destruct (negb (pipe_ok s c)); [discriminate|]. destruct (forallb (e_alive s) (names c)) eqn:F; cbn [negb] in H; [|discriminate].
  assert (NM : forall e, In e (names c) -> e < o_ne s).
  { intros e I. rewrite forallb_forall in F. specialize (F e I). unfold e_alive in F. apply andb_true_iff in F. apply Nat.ltb_lt. apply F. }
  assert (Q : o_ne s <= o_ne s' /\ (forall e, x = OOk (Some e) -> e < o_ne s')); [|destruct Q; auto].
  destruct c as [|[p|]| |p k d|p y t d|p k y d|p d|p k d|p w|p|p w]; cbn [names] in NM.
  - injection H as <- <-. cbn. split; [lia|discriminate].
  - destruct (del_pipe _ _) as [s1|] eqn:E; [|discriminate]. injection H as <- <-. apply del_pipe_inv in E. destruct E as [-> _]. cbn. split; [lia|discriminate].
  - injection H as <- <-. split; [lia|discriminate].
  - destruct (del_pipes _ _) as [s1|] eqn:E; [|discriminate]. injection H as <- <-. destruct (del_frame _ _ _ E) as [B _]. cbn. split; [lia|discriminate].
  - unfold ret in H. injection H as <- <-. unfold reg_new. destruct (o_pinit s p); [split; [cbn; lia|discriminate]|]. destruct (okind_eqb k KGroup); [split; [cbn; lia|discriminate]|]. destruct (inner_ne (new_elem s p k) p (o_ne s) d) as [A B]. cbn [new_elem o_ne] in A. split; [lia|]. intros e X. apply B in X. subst. lia.
  - unfold ret in H. injection H as <- <-. unfold reg_group. destruct (o_pinit s p); [split; [cbn; lia|discriminate]|]. destruct y as [y|]; [|split; [cbn; lia|discriminate]]. destruct (o_reg s y); [split; [cbn; lia|discriminate]|]. destruct (negb _); [split; [cbn; lia|discriminate]|].
    destruct (inner_ne s p y d) as [A B]. split; [lia|]. intros e X. apply B in X. subst. rewrite A. apply NM. now left.
  - unfold ret in H. injection H as <- <-. unfold reg_old. destruct (o_pinit s p); [split; [cbn; lia|discriminate]|]. destruct y as [y|]; [|split; [cbn; lia|discriminate]]. destruct (negb _); [split; [cbn; lia|discriminate]|]. destruct (e_belong _); [split; [cbn; lia|discriminate]|]. destruct (o_reg s y); [split; [cbn; lia|discriminate]|].
    destruct (inner_ne s p y d) as [A B]. split; [lia|]. intros e X. apply B in X. subst. rewrite A. apply NM. now left.
  - unfold ret in H. injection H as <- <-. unfold mk_node. destruct (o_pinit s p); [split; [cbn; lia|discriminate]|]. cbn zeta. destruct (add_info _ _ _) as [g1 ok]. destruct ok; cbn; (split; [lia|]); [|discriminate]. intros e X. injection X as <-. lia.
  - unfold ret in H. injection H as <- <-. unfold mk_group. destruct (o_pinit s p); [split; [cbn; lia|discriminate]|]. destruct (_ || _); [split; [cbn; lia|discriminate]|]. cbn zeta. set (s1 := fold_left _ _ _). destruct (kids_frame (o_ne s) (somes k) (new_elem s p KGroup)) as [_ [F2 _]]. fold s1 in F2. cbn [new_elem o_ne] in F2.
    destruct (add_info _ _ _) as [g1 ok]. destruct ok; cbn [negb fst snd set_g set_repo o_ne]; (split; [lia|]); [|discriminate]. intros e X. injection X as <-. lia.
  - destruct (o_pinit s p); [injection H as <- <-; split; [lia|discriminate]|]. cbn zeta in H. destruct (negb _); [discriminate|]. destruct w; injection H as <- <-; cbn; (split; [lia|discriminate]).
  - destruct (negb (o_pinit s p)); [injection H as <- <-; split; [lia|discriminate]|]. destruct (negb _); [discriminate|]. injection H as <- <-. split; [lia|discriminate].
  - destruct (negb (o_pinit s p)); [injection H as <- <-; split; [lia|discriminate]|]. destruct (negb _); [discriminate|]. destruct w; injection H as <- <-; cbn; (split; [lia|discriminate]).
Qed.
(** Nothing is stored that was not allocated. *)
Definition fresh (s : ost) : Prop := forall e, o_ne s <= e -> absent s e.
Lemma fresh_step s c x s' : fresh s -> ostep s c = ORet x s' -> fresh s'.
Proof. intros F H e L. destruct (step_ne _ _ _ _ H) as [A [B C]]. apply (absent_step _ _ _ _ _ H); [apply F; lia|intros I; apply C in I; lia|intros X; apply B in X; lia]. Qed.
Lemma fresh_run cs : forall s xs s', fresh s -> orun s cs = Some (xs, s') -> fresh s'.
Proof.
  induction cs as [|c r IH]; intros s xs s' F H; cbn in H; [injection H as _ <-; exact F|]. destruct (ostep s c) as [|x s1] eqn:E; [discriminate|]. destruct (orun s1 r) as [[ys s2]|] eqn:E2; [|discriminate].
  injection H as _ <-. exact (IH _ _ _ (fresh_step _ _ _ _ F E) E2).
Qed.
Lemma fresh_new : fresh o_new. Proof. intros e _. constructor; cbn; auto. Qed.
Lemma absent_run cs : forall s e xs s', absent s e -> e < o_ne s -> (forall c, In c cs -> ~ In e (names c)) -> orun s cs = Some (xs, s') -> absent s' e.
Proof.
  induction cs as [|c r IH]; intros s e xs s' A L N H; cbn in H; [injection H as _ <-; exact A|]. destruct (ostep s c) as [|x s1] eqn:E; [discriminate|]. destruct (orun s1 r) as [[ys s2]|] eqn:E2; [|discriminate].
  injection H as _ <-. assert (X : x <> OOk (Some e)); [|].
  2:{ apply (IH s1 e ys s2); [apply (absent_step _ _ _ _ _ E A); [apply N; now left|exact X]|destruct (step_ne _ _ _ _ E); lia|intros; apply N; now right|exact E2]. }
  intros ->. specialize (N c (or_introl eq_refl)). clear - E L N. unfold ostep in E. destruct (negb (pipe_ok s c)); [discriminate|]. destruct (negb _); [discriminate|].
  assert (IN : forall s0 p y d, e <> y -> fst (inner_register s0 p y d) <> OOk (Some e)) by (intros s0 p y d Q Z; apply inner_ne in Z; auto).
  destruct c as [|[p|]| |p k d|p y t d|p k y d|p d|p k d|p w|p|p w]; cbn [names] in N; try discriminate.
  - destruct (del_pipe _ _); discriminate.
  - destruct (del_pipes _ _); discriminate.
  - unfold ret in E. injection E as E _. revert E. unfold reg_new. destruct (o_pinit s p); [discriminate|]. destruct (okind_eqb k KGroup); [discriminate|]. apply IN. lia.
  - unfold ret in E. injection E as E _. revert E. unfold reg_group. destruct (o_pinit s p); [discriminate|]. destruct y as [y|]; [|discriminate]. destruct (o_reg s y); [discriminate|]. destruct (negb _); [discriminate|]. apply IN. intros ->. apply N. now left.
  - unfold ret in E. injection E as E _. revert E. unfold reg_old. destruct (o_pinit s p); [discriminate|]. destruct y as [y|]; [|discriminate]. destruct (negb _); [discriminate|]. destruct (e_belong _); [discriminate|]. destruct (o_reg s y); [discriminate|]. apply IN. intros ->. apply N. now left.
  - unfold ret in E. injection E as E _. revert E. unfold mk_node. destruct (o_pinit s p); [discriminate|]. cbn zeta. destruct (add_info _ _ _) as [g1 ok]. destruct ok; cbn; [|discriminate]. intros X. injection X as X. lia.
  - unfold ret in E. injection E as E _. revert E. unfold mk_group. destruct (o_pinit s p); [discriminate|]. destruct (_ || _); [discriminate|]. cbn zeta. destruct (add_info _ _ _) as [g1 ok]. destruct ok; cbn; [|discriminate]. intros X. injection X as X. lia.
  - destruct (o_pinit s p); [discriminate|]. cbn zeta in E. destruct (negb _); [discriminate|]. destruct w; discriminate.
  - destruct (negb (o_pinit s p)); [discriminate|]. destruct (negb _); discriminate.
  - destruct (negb (o_pinit s p)); [discriminate|]. destruct (negb _); [discriminate|]. destruct w; discriminate.
Qed.

(** ** Repositories in arbitrary programs *)
Lemma inner_repo s p x d e : let y := inner_register s p x d in (forall q z, In z (o_repo s q) -> In z (o_repo (snd y) q)) /\ o_np (snd y) = o_np s /\ (fst y = OOk (Some e) -> In e (o_repo (snd y) p)).
Proof.
  cbn zeta. unfold inner_register. destruct (o_pinit s p); [split; [auto|]; split; [auto|discriminate]|]. destruct (add_info _ _ _) as [g1 ok]. destruct ok; cbn [negb]; [|split; [auto|]; split; [auto|discriminate]]. unfold add_managers.
  destruct (forallb _ _); cbn [negb]; [|split; [auto|]; split; [auto|discriminate]]. cbn. split; [|split; [reflexivity|]].
  - intros q z I. destruct (Nat.eq_dec q p) as [->|N]; [rewrite upd_same; apply in_set_ins; auto|rewrite upd_other by auto; exact I].
  - intros X. injection X as <-. rewrite upd_same. apply in_set_ins. auto.
Qed.
Lemma step_repo s c x s' : ostep s c = ORet x s' -> o_np s <= o_np s' /\ (forall p e, p < o_np s -> In e (o_repo s p) -> In e (o_repo s' p)) /\ (forall p e, x = OOk (Some e) -> on_pipe c = Some p -> In e (o_repo s' p) /\ p < o_np s).
Proof.
  unfold ostep. intros H. destruct (pipe_ok s c) eqn:PK; cbn [negb] in H; [|discriminate]. destruct (negb _); [discriminate|].
  assert (Q : o_np s <= o_np s' /\ (forall p e, p < o_np s -> In e (o_repo s p) -> In e (o_repo s' p)) /\ (forall p e, x = OOk (Some e) -> on_pipe c = Some p -> In e (o_repo s' p))).
  2:{ destruct Q as [A [B C]]. split; [exact A|]. split; [exact B|]. intros p e X Y. split; [exact (C p e X Y)|]. unfold pipe_ok in PK. rewrite Y in PK. unfold p_alive in PK. apply andb_true_iff in PK. apply Nat.ltb_lt, PK. }
  assert (TR : (forall e, x <> OOk (Some e)) -> s = s' -> o_np s <= o_np s' /\ (forall p e, p < o_np s -> In e (o_repo s p) -> In e (o_repo s' p)) /\ (forall p e, x = OOk (Some e) -> on_pipe c = Some p -> In e (o_repo s' p))).
  { intros R <-. split; [lia|]. split; [auto|]. intros p e X. exfalso. exact (R e X). }
  assert (IR : forall s0 p y d, o_np s0 = o_np s -> o_repo s0 = o_repo s -> on_pipe c = Some p -> ret (inner_register s0 p y d) = ORet x s' -> o_np s <= o_np s' /\ (forall p e, p < o_np s -> In e (o_repo s p) -> In e (o_repo s' p)) /\ (forall p e, x = OOk (Some e) -> on_pipe c = Some p -> In e (o_repo s' p))).
  { intros s0 p y d E1 E2 O E. unfold ret in E. injection E as <- <-. destruct (inner_repo s0 p y d 0) as [A [B _]]. rewrite E2 in A. split; [lia|]. split; [auto|]. intros q e X Y. assert (q = p) by congruence. subst q. apply (inner_repo s0 p y d e). exact X. }
  destruct c as [|[p|]| |p k d|p y t d|p k y d|p d|p k d|p w|p|p w].
  - injection H as <- <-. cbn. split; [lia|]. split; [|discriminate]. intros p e L I. rewrite upd_other by lia. exact I.
  - destruct (del_pipe _ _) as [s1|] eqn:E; [|discriminate]. injection H as <- <-. apply del_pipe_inv in E. destruct E as [-> _]. cbn. split; [lia|]. split; [auto|discriminate].
  - injection H as <- <-. apply TR; [discriminate|reflexivity].
  - destruct (del_pipes _ _) as [s1|] eqn:E; [|discriminate]. injection H as <- <-. destruct (del_frame _ _ _ E) as [_ [B [_ [D _]]]]. cbn. rewrite D. split; [lia|]. split; [auto|discriminate].
  - revert H. unfold reg_new. destruct (o_pinit s p); [intros H; injection H as <- <-; apply TR; [discriminate|reflexivity]|]. destruct (okind_eqb k KGroup); [intros H; injection H as <- <-; apply TR; [discriminate|reflexivity]|]. intros H. now apply (IR (new_elem s p k) p (o_ne s) d).
  - revert H. unfold reg_group. destruct (o_pinit s p); [intros H; injection H as <- <-; apply TR; [discriminate|reflexivity]|]. destruct y as [y|]; [|intros H; injection H as <- <-; apply TR; [discriminate|reflexivity]]. destruct (o_reg s y); [intros H; injection H as <- <-; apply TR; [discriminate|reflexivity]|]. destruct (negb _); [intros H; injection H as <- <-; apply TR; [discriminate|reflexivity]|]. intros H. now apply (IR s p y d).
  - revert H. unfold reg_old. destruct (o_pinit s p); [intros H; injection H as <- <-; apply TR; [discriminate|reflexivity]|]. destruct y as [y|]; [|intros H; injection H as <- <-; apply TR; [discriminate|reflexivity]]. destruct (negb _); [intros H; injection H as <- <-; apply TR; [discriminate|reflexivity]|]. destruct (e_belong _); [intros H; injection H as <- <-; apply TR; [discriminate|reflexivity]|]. destruct (o_reg s y); [intros H; injection H as <- <-; apply TR; [discriminate|reflexivity]|]. intros H. now apply (IR s p y d).
  - revert H. unfold mk_node. destruct (o_pinit s p); [intros H; injection H as <- <-; apply TR; [discriminate|reflexivity]|]. cbn zeta. destruct (add_info _ _ _) as [g1 ok]. destruct ok; cbn [negb]; intros H; injection H as <- <-; cbn; (split; [lia|]); [|split; [auto|discriminate]]. split.
    + intros q z L I. destruct (Nat.eq_dec q p) as [->|N]; [rewrite upd_same; apply in_set_ins; auto|rewrite upd_other by auto; exact I].
    + intros q e X Y. injection X as <-. injection Y as <-. rewrite upd_same. apply in_set_ins. auto.
  - revert H. unfold mk_group. destruct (o_pinit s p); [intros H; injection H as <- <-; apply TR; [discriminate|reflexivity]|]. destruct (_ || _); [intros H; injection H as <- <-; apply TR; [discriminate|reflexivity]|]. cbn zeta. set (s1 := fold_left _ _ _).
    destruct (kids_frame (o_ne s) (somes k) (new_elem s p KGroup)) as [_ [_ [F3 [F4 _]]]]. fold s1 in F3, F4. cbn [new_elem o_np o_repo] in F3, F4. rewrite F4.
    destruct (add_info _ _ _) as [g1 ok]. destruct ok; cbn [negb]; intros H; injection H as <- <-; cbn [set_g set_repo o_np o_repo on_pipe]; rewrite F3, ?F4; (split; [lia|]); [|split; [auto|discriminate]]. split.
    + intros q z L I. destruct (Nat.eq_dec q p) as [->|N]; [rewrite upd_same; apply in_set_ins; auto|rewrite upd_other by auto; exact I].
    + intros q e X Y. injection X as <-. injection Y as <-. rewrite upd_same. apply in_set_ins. auto.
  - destruct (o_pinit s p); [injection H as <- <-; apply TR; [discriminate|reflexivity]|]. cbn zeta in H. destruct (negb _); [discriminate|]. assert (G : grows s (fetch_all s p)) by apply grows_ins. destruct G as [_ G].
    destruct w; injection H as <- <-; cbn [set_einit set_pinit set_g o_np o_repo]; (split; [apply le_n|]); (split; [auto|discriminate]).
  - destruct (negb (o_pinit s p)); [injection H as <- <-; apply TR; [discriminate|reflexivity]|]. destruct (negb _); [discriminate|]. injection H as <- <-. apply TR; [discriminate|reflexivity].
  - destruct (negb (o_pinit s p)); [injection H as <- <-; apply TR; [discriminate|reflexivity]|]. destruct (negb _); [discriminate|]. destruct w; injection H as <- <-; cbn; (split; [apply le_n|]); (split; [auto|discriminate]).
Qed.
Lemma run_repo cs : forall s xs s', orun s cs = Some (xs, s') -> o_np s <= o_np s' /\ (forall p e, p < o_np s -> In e (o_repo s p) -> In e (o_repo s' p)) /\ (forall c p e, In (c, OOk (Some e)) (combine cs xs) -> on_pipe c = Some p -> In e (o_repo s' p)).
Proof.
  induction cs as [|c r IH]; intros s xs s' H; cbn in H; [injection H as <- <-; split; [lia|]; split; [auto|intros c p e []]|]. destruct (ostep s c) as [|x s1] eqn:E; [discriminate|]. destruct (orun s1 r) as [[ys s2]|] eqn:E2; [|discriminate].
  injection H as <- <-. destruct (step_repo _ _ _ _ E) as [A [B C]]. destruct (IH _ _ _ E2) as [A2 [B2 C2]]. split; [lia|]. split; [intros p e L I; apply B2; [lia|auto]|].
  intros c' p e [X|X] O; [injection X as -> ->|exact (C2 c' p e X O)]. destruct (C p e eq_refl O) as [I L]. apply B2; [lia|exact I].
Qed.
Lemma orun_app cs ds : forall s, orun s (cs ++ ds) = match orun s cs with None => None | Some (xs, s1) => match orun s1 ds with None => None | Some (ys, s2) => Some (xs ++ ys, s2) end end.
Proof.
  induction cs as [|c r IH]; intros s; cbn [app orun]; [destruct (orun s ds) as [[ys s2]|]; reflexivity|]. destruct (ostep s c) as [|x s1]; [reflexivity|]. rewrite IH. destruct (orun s1 r) as [[xs s2]|]; [|reflexivity].
  destruct (orun s2 ds) as [[ys s3]|]; reflexivity.
Qed.

(** ** Deciding that a concrete program is tidy *)
Definition tidyb_call (s : ost) (c : ocall) : bool :=
  let ok p := Nat.ltb p (o_np s) && Nat.eqb (p_deletions s p) 0 in
  match on_pipe c with
  | Some p => ok p && forallb (fun e => existsb (fun x => Nat.eqb (fst x) e && Nat.eqb (snd x) p) (o_made s)) (names c)
  | None => match c with ORemove (Some p) => ok p | _ => true end
  end.
Fixpoint tidyb (s : ost) (cs : list ocall) : bool :=
  match cs with [] => true | c :: r => tidyb_call s c && match ostep s c with OBad => true | ORet _ s' => tidyb s' r end end.
Lemma tidyb_ok cs : forall s, tidyb s cs = true -> tidy s cs.
Proof.
  induction cs as [|c r IH]; intros s H; cbn in H; [exact I|]. apply andb_true_iff in H. destruct H as [A B]. split; [|intros x s' E; rewrite E in B; auto].
  assert (Q : forall p, (Nat.ltb p (o_np s) && Nat.eqb (p_deletions s p) 0) = true -> p < o_np s /\ p_deletions s p = 0) by (intros p X; apply andb_true_iff in X; destruct X as [X Y]; apply Nat.ltb_lt in X; apply Nat.eqb_eq in Y; auto).
  unfold tidyb_call in A. split.
  - intros p [O| ->]; [rewrite O in A; apply andb_true_iff in A; apply Q, A|apply Q, A].
  - intros p e O N. rewrite O in A. apply andb_true_iff in A. destruct A as [_ A]. rewrite forallb_forall in A. specialize (A e N). apply existsb_exists in A. destruct A as [[a b] [I A]]. cbn in A. apply andb_true_iff in A. destruct A as [X Y]. apply Nat.eqb_eq in X, Y. subst. exact I.
Qed.

(** ** What is nested is adopted by init *)
Lemma nest_closed kids : (forall e k, In k (kids e) -> k < e) -> forall n e x k, e < n -> In x (nest n kids e) -> In k (kids x) -> In k (nest n kids e).
Proof.
  intros D. induction n as [|n IH]; intros e x k L I K; [lia|]. cbn [nest] in *. right. apply in_flat_map. destruct I as [<-|I].
  - exists k. split; [exact K|]. pose proof (D _ _ K). destruct n as [|n]; [lia|]. now left.
  - apply in_flat_map in I. destruct I as [j [J I]]. exists j. split; [exact J|]. apply (IH j x k); auto. pose proof (D _ _ J). lia.
Qed.
Definition keep (s : ost) (c : ocall) (x : ores) (s' : ost) : Prop :=
  (forall g k, g < o_ne s -> In k (o_kids s g) -> In k (o_kids s' g)) /\ (forall p e, p < o_np s -> In e (o_mgr s p) -> In e (o_mgr s' p)) /\
  (forall p ks d g k, c = OMkGroup p ks d -> x = OOk (Some g) -> In (Some k) ks -> In k (o_kids s' g)) /\
  (forall p e, registers c = true -> on_pipe c = Some p -> x = OOk (Some e) -> In e (o_mgr s' p)).
Lemma inner_keep s p x d : let y := inner_register s p x d in o_kids (snd y) = o_kids s /\ (forall q z, In z (o_mgr s q) -> In z (o_mgr (snd y) q)) /\ (forall e, fst y = OOk (Some e) -> In e (o_mgr (snd y) p)).
Proof.
  cbn zeta. unfold inner_register. destruct (o_pinit s p); [split; [auto|]; split; [auto|discriminate]|]. destruct (add_info _ _ _) as [g1 ok]. destruct ok; cbn [negb]; [|split; [auto|]; split; [auto|discriminate]]. unfold add_managers.
  destruct (forallb _ _); cbn [negb]; [|split; [auto|]; split; [auto|discriminate]]. cbn. split; [reflexivity|]. split.
  - intros q z I. destruct (Nat.eq_dec q p) as [->|N]; [rewrite upd_same; apply in_set_ins; auto|rewrite upd_other by auto; exact I].
  - intros e X. injection X as <-. rewrite upd_same. apply in_set_ins. auto.
Qed.
Lemma add_kids_in g l : forall s k, In k (o_kids s g) \/ In k l -> In k (o_kids (fold_left (fun x k => add_kid x g k) l s) g).
Proof.
  induction l as [|a l IH]; intros s k H; cbn [fold_left]; [destruct H as [H|[]]; exact H|]. apply IH. unfold add_kid. cbn. rewrite upd_same, in_app_iff. cbn. destruct H as [H|[H|H]]; auto.
Qed.
Lemma add_kids_other g l : forall s h, h <> g -> o_kids (fold_left (fun x k => add_kid x g k) l s) h = o_kids s h.
Proof. induction l as [|a l IH]; intros s h N; cbn [fold_left]; [reflexivity|]. rewrite IH by exact N. unfold add_kid. cbn. now rewrite upd_other by auto. Qed.
Lemma step_keep s c x s' : ostep s c = ORet x s' -> keep s c x s'.
Proof.
  unfold ostep. intros H. destruct (negb (pipe_ok s c)); [discriminate|]. destruct (negb _); [discriminate|].
  assert (TR : (forall e, x <> OOk (Some e)) -> o_kids s' = o_kids s -> (forall p e, p < o_np s -> In e (o_mgr s p) -> In e (o_mgr s' p)) -> keep s c x s').
  { intros R K M. split; [rewrite K; auto|]. split; [exact M|]. split; [intros p ks d g k _ X; exfalso; exact (R g X)|intros p e _ _ X; exfalso; exact (R e X)]. }
  assert (IR : forall s0 p y d, (forall g, g < o_ne s -> o_kids s0 g = o_kids s g) -> o_mgr s0 = o_mgr s -> registers c = true -> on_pipe c = Some p -> ret (inner_register s0 p y d) = ORet x s' -> keep s c x s').
  { intros s0 p y d K M Rg O E. unfold ret in E. injection E as <- <-. destruct (inner_keep s0 p y d) as [A [B C]]. rewrite M in B. unfold keep. rewrite A. split; [intros g k L I; rewrite K; auto|]. split; [auto|].
    split; [intros q ks d' g k X; subst c; discriminate|]. intros q e _ Y X. assert (q = p) by congruence. subst q. exact (C e X). }
  destruct c as [|[p|]| |p k d|p y t d|p k y d|p d|p k d|p w|p|p w].
  - injection H as <- <-. apply TR; [discriminate|reflexivity|]. cbn. intros p e L I. rewrite upd_other by lia. exact I.
  - destruct (del_pipe _ _) as [s1|] eqn:E; [|discriminate]. injection H as <- <-. apply del_pipe_inv in E. destruct E as [-> _]. apply TR; [discriminate|reflexivity|auto].
  - injection H as <- <-. apply TR; [discriminate|reflexivity|auto].
  - destruct (del_pipes _ _) as [s1|] eqn:E; [|discriminate]. injection H as <- <-. assert (Q : o_kids s1 = o_kids s /\ o_mgr s1 = o_mgr s); [|destruct Q as [Q1 Q2]; apply TR; [discriminate|exact Q1|cbn; rewrite Q2; auto]].
    clear - E. revert E. generalize (o_list s). intros l. revert s. induction l as [|p l IH]; intros s E; cbn in E; [injection E as <-; auto|]. destruct (del_pipe s p) as [s2|] eqn:D; [|discriminate]. apply del_pipe_inv in D. destruct D as [-> _]. exact (IH _ E).
  - revert H. unfold reg_new. destruct (o_pinit s p); [intros H; injection H as <- <-; apply TR; [discriminate|reflexivity|auto]|]. destruct (okind_eqb k KGroup); [intros H; injection H as <- <-; apply TR; [discriminate|reflexivity|auto]|].
    apply (IR (new_elem s p k) p (o_ne s) d); [|reflexivity|reflexivity|reflexivity]. intros g L. cbn. now rewrite upd_other by lia.
  - revert H. unfold reg_group. destruct (o_pinit s p); [intros H; injection H as <- <-; apply TR; [discriminate|reflexivity|auto]|]. destruct y as [y|]; [|intros H; injection H as <- <-; apply TR; [discriminate|reflexivity|auto]]. destruct (o_reg s y); [intros H; injection H as <- <-; apply TR; [discriminate|reflexivity|auto]|]. destruct (negb _); [intros H; injection H as <- <-; apply TR; [discriminate|reflexivity|auto]|].
    now apply (IR s p y d).
  - revert H. unfold reg_old. destruct (o_pinit s p); [intros H; injection H as <- <-; apply TR; [discriminate|reflexivity|auto]|]. destruct y as [y|]; [|intros H; injection H as <- <-; apply TR; [discriminate|reflexivity|auto]]. destruct (negb _); [intros H; injection H as <- <-; apply TR; [discriminate|reflexivity|auto]|]. destruct (e_belong _); [intros H; injection H as <- <-; apply TR; [discriminate|reflexivity|auto]|]. destruct (o_reg s y); [intros H; injection H as <- <-; apply TR; [discriminate|reflexivity|auto]|].
    now apply (IR s p y d).
  - revert H. unfold mk_node. destruct (o_pinit s p); [intros H; injection H as <- <-; apply TR; [discriminate|reflexivity|auto]|]. cbn zeta. destruct (add_info _ _ _) as [g1 ok].
    destruct ok; cbn [negb]; intros H; injection H as <- <-; (split; [cbn; intros g k L I; rewrite upd_other by lia; exact I|]); (split; [auto|]); (split; [intros; discriminate|intros; discriminate]).
  - revert H. unfold mk_group. destruct (o_pinit s p); [intros H; injection H as <- <-; apply TR; [discriminate|reflexivity|auto]|]. destruct (_ || _); [intros H; injection H as <- <-; apply TR; [discriminate|reflexivity|auto]|]. cbn zeta. set (s1 := fold_left _ _ _).
    destruct (kids_frame (o_ne s) (somes k) (new_elem s p KGroup)) as [_ [_ [_ [_ [_ [_ [F7 _]]]]]]]. fold s1 in F7. cbn [new_elem o_mgr] in F7.
    assert (K1 : forall g z, g < o_ne s -> In z (o_kids s g) -> In z (o_kids s1 g)) by (intros g z L I; unfold s1; rewrite add_kids_other by lia; cbn; rewrite upd_other by lia; exact I).
    destruct (add_info _ _ _) as [g1 ok]. destruct ok; cbn [negb]; intros H; injection H as <- <-; (split; [exact K1|]); (split; [cbn [set_g set_repo o_mgr]; rewrite F7; auto|]); (split; [|intros; discriminate]); [|intros; discriminate].
    intros q ks d' g z X Y I. injection X as <- <- <-. injection Y as <-. cbn [set_g set_repo o_kids]. apply add_kids_in. right. now apply in_somes.
  - destruct (o_pinit s p); [injection H as <- <-; apply TR; [discriminate|reflexivity|auto]|]. cbn zeta in H. destruct (negb _); [discriminate|]. destruct w; injection H as <- <-; (apply TR; [discriminate|reflexivity|auto]).
  - destruct (negb (o_pinit s p)); [injection H as <- <-; apply TR; [discriminate|reflexivity|auto]|]. destruct (negb _); [discriminate|]. injection H as <- <-. apply TR; [discriminate|reflexivity|auto].
  - destruct (negb (o_pinit s p)); [injection H as <- <-; apply TR; [discriminate|reflexivity|auto]|]. destruct (negb _); [discriminate|]. destruct w; injection H as <- <-; (apply TR; [discriminate|reflexivity|auto]).
Qed.
Lemma run_keep cs : forall s xs s', orun s cs = Some (xs, s') ->
  (forall g k, g < o_ne s -> In k (o_kids s g) -> In k (o_kids s' g)) /\ (forall p e, p < o_np s -> In e (o_mgr s p) -> In e (o_mgr s' p)) /\
  (forall p ks d g k, accepted cs xs (OMkGroup p ks d) g -> In (Some k) ks -> In k (o_kids s' g)) /\
  (forall c p e, accepted cs xs c e -> registers c = true -> on_pipe c = Some p -> In e (o_mgr s' p)).
Proof.
  unfold accepted. induction cs as [|c r IH]; intros s xs s' H; cbn in H; [injection H as <- <-; do 2 (split; [auto|]); split; intros; contradiction|]. destruct (ostep s c) as [|x s1] eqn:E; [discriminate|]. destruct (orun s1 r) as [[ys s2]|] eqn:E2; [|discriminate].
  injection H as <- <-. destruct (step_keep _ _ _ _ E) as [A [B [C D]]]. destruct (IH _ _ _ E2) as [A2 [B2 [C2 D2]]]. destruct (step_ne _ _ _ _ E) as [L1 [L2 _]]. destruct (step_repo _ _ _ _ E) as [L3 [_ L4]].
  split; [intros g k L I; apply A2; [lia|auto]|]. split; [intros p e L I; apply B2; [lia|auto]|]. split.
  - intros p ks d g k [X|X] I; [injection X as -> ->|exact (C2 _ _ _ _ _ X I)]. apply A2; [apply L2; reflexivity|]. exact (C _ _ _ _ _ eq_refl eq_refl I).
  - intros c' p e [X|X] R O; [injection X as -> ->|exact (D2 _ _ _ X R O)]. destruct (L4 p e eq_refl O). apply B2; [lia|]. exact (D _ _ R O eq_refl).
Qed.
Lemma inside_nested cs xs s g e : own s -> orun o_new cs = Some (xs, s) -> inside cs xs g e -> In e (nested s g).
Proof.
  intros W H I. destruct (run_keep _ _ _ _ H) as [_ [_ [C _]]]. unfold nested. induction I as [|p ks d h e I IH A K]; [now left|].
  apply (nest_closed (o_kids s)) with (x := h); [intros a b X; apply (w_kids _ W _ _ X)|lia|exact IH|]. exact (C _ _ _ _ _ A K).
Qed.
Lemma tidy_app cs ds : forall s xs s', tidy s (cs ++ ds) -> orun s cs = Some (xs, s') -> tidy s cs /\ tidy s' ds.
Proof.
  induction cs as [|c r IH]; intros s xs s' T H; cbn [app] in T; [cbn in H; injection H as _ <-; split; [exact I|exact T]|]. destruct T as [T1 T2]. cbn [orun] in H. destruct (ostep s c) as [|x s1] eqn:E; [discriminate|].
  destruct (orun s1 r) as [[ys s2]|] eqn:E2; [|discriminate]. injection H as _ <-. destruct (IH _ _ _ (T2 _ _ eq_refl) E2) as [A B]. split; [|exact B]. split; [exact T1|]. intros y s3 X. congruence.
Qed.
