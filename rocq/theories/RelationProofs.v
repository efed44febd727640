(** Proofs about the relation of an element *)
From Verif Require Import GraphSpec DepProofs RelationSpec PlaceProofs.
From Coq Require Import Lia.
Local Open Scope nat_scope.
Local Open Scope list_scope.

Lemma rel_run_app h1 : forall s h2, rel_run s (h1 ++ h2) = (fst (rel_run (fst (rel_run s h1)) h2), snd (rel_run s h1) ++ snd (rel_run (fst (rel_run s h1)) h2)).
Proof.
  induction h1 as [|o r IH]; intros s h2; cbn [app rel_run fst snd]; [now destruct (rel_run s h2)|].
  destruct (rel_step s o) as [s1 a]. rewrite IH. destruct (rel_run s1 r) as [s2 l]. reflexivity.
Qed.
Lemma rel_after_snoc h o : rel_after (h ++ [o]) = fst (rel_step (rel_after h) o).
Proof. unfold rel_after. rewrite rel_run_app. cbn [fst rel_run]. now destruct (rel_step _ o). Qed.
Lemma rel_answers_snoc h o : rel_answers (h ++ [o]) = rel_answers h ++ [snd (rel_step (rel_after h) o)].
Proof. unfold rel_answers, rel_after. rewrite rel_run_app. cbn [snd rel_run]. now destruct (rel_step _ o). Qed.
Lemma rel_answers_len h : length (rel_answers h) = length h.
Proof. induction h as [|o h IH] using rev_ind; [reflexivity|]. rewrite rel_answers_snoc, !app_length, IH. reflexivity. Qed.

(** The places are those of the place calls alone *)
Lemma places_snoc h o : places (h ++ [o]) = places h ++ match o with RPlace p => [p] | _ => [] end.
Proof. unfold places. rewrite flat_map_app. cbn [flat_map]. now rewrite app_nil_r. Qed.
Lemma place_part h : r_n (rel_after h) = length (places h) /\ r_l (rel_after h) = l_after (places h) /\ (forall e, e_belong (r_g (rel_after h) e) = l_belong (l_after (places h)) e).
Proof.
  induction h as [|o h (IN & IL & IB)] using rev_ind; [now repeat split|]. rewrite rel_after_snoc, places_snoc. destruct o as [p|e on|e d]; cbn [rel_step].
  - rewrite IN, IL. pose proof (l_after_snoc (places h) p) as S. destruct (l_step (length (places h)) (l_after (places h)) p) as [l a]. cbn [fst] in *. subst l.
    cbn [r_n r_l r_g with_belong e_belong]. split; [rewrite app_length; cbn; lia|]. now split.
  - rewrite app_nil_r. destruct (exist _ _); [|now repeat split]. destruct (addDepend _ _ _) as [g ok] eqn:E. cbn [fst r_n r_l r_g]. destruct (addDepend_spec _ _ _ _ _ E) as (d & _ & _ & _ & B & _).
    split; [exact IN|]. split; [exact IL|]. intros x. rewrite B. apply IB.
  - rewrite app_nil_r. destruct (exist _ _); [|now repeat split]. destruct (removeDepend _ _ _) as [g ok] eqn:E. cbn [fst r_n r_l r_g].
    split; [exact IN|]. split; [exact IL|]. intros x. rewrite <- IB. unfold removeDepend in E. destruct (e_init _); [now injection E as <- _|]. destruct (negb _); [now injection E as <- _|]. injection E as <- _.
    unfold upd. repeat (match goal with |- context [Nat.eqb ?u ?v] => destruct (Nat.eqb_spec u v); subst end); reflexivity.
Qed.

(** The edges *)
Lemma edges_all h : edges_ok (r_g (rel_after h)).
Proof.
  induction h as [|o h IH] using rev_ind; [apply no_edges_ok; now split|]. rewrite rel_after_snoc. destruct o as [p|e on|e d]; cbn [rel_step].
  - destruct (l_step _ _ p) as [l a]. exact IH.
  - destruct (exist _ _); [|exact IH]. pose proof (dep_step_edges_ok _ (OAdd e (map Some on)) IH) as S. cbn [dep_step] in S. destruct (addDepend _ _ _) as [g ok]. exact S.
  - destruct (exist _ _); [|exact IH]. pose proof (dep_step_edges_ok _ (ORemove e (Some d)) IH) as S. cbn [dep_step] in S. destruct (removeDepend _ _ _) as [g ok]. exact S.
Qed.
Lemma asked_snoc h : forall now l o x a b, length l = length h ->
  asked now (h ++ [o]) (l ++ [x]) a b = match x with ROk => match says o a b with Some y => y | None => asked now h l a b end | _ => asked now h l a b end.
Proof.
  induction h as [|p h IH]; intros now [|y l] o x a b L; try discriminate; cbn [app asked].
  - destruct x; reflexivity.
  - injection L as L. destruct y; now apply IH.
Qed.
Lemma none_refused_snoc h o : none_refused (h ++ [o]) -> none_refused h /\ forall e on, o = RDepend e on -> snd (rel_step (rel_after h) o) <> RRefused.
Proof.
  intros N. split.
  - intros i e on H F. assert (L : i < length h) by (apply nth_error_Some; congruence). apply (N i e on).
    + now rewrite nth_error_app1.
    + rewrite rel_answers_snoc. rewrite nth_error_app1; [exact F|]. now rewrite rel_answers_len.
  - intros e on -> F. apply (N (length h) e on).
    + rewrite nth_error_app2 by lia. now rewrite Nat.sub_diag.
    + rewrite rel_answers_snoc. rewrite nth_error_app2 by (rewrite rel_answers_len; lia). rewrite rel_answers_len, Nat.sub_diag. cbn [nth_error]. now rewrite F.
Qed.
Lemma map_some_inj (a b : list nat) : map Some a = map Some b -> a = b.
Proof. revert b. induction a as [|x a IH]; intros [|y b] H; try discriminate; [reflexivity|]. cbn in H. injection H as -> H. f_equal. now apply IH. Qed.
Lemma edges_asked h : none_refused h -> forall a b, In b (e_dep (r_g (rel_after h) a)) <-> asked false h (rel_answers h) a b = true.
Proof.
  induction h as [|o h IH] using rev_ind; intros N a b; [split; [intros []|discriminate]|]. apply none_refused_snoc in N. destruct N as [N NO]. specialize (IH N).
  rewrite rel_after_snoc, rel_answers_snoc, asked_snoc by apply rel_answers_len. destruct o as [p|e on|e d]; cbn [rel_step] in *.
  - destruct (l_step _ _ p) as [l x]. cbn [fst snd r_g with_belong e_dep says]. destruct (place_ans x); apply IH.
  - specialize (NO e on eq_refl). destruct (exist _ _); [|apply IH]. destruct (addDepend _ _ _) as [g ok] eqn:E. cbn [fst snd r_g] in *. destruct ok; [|now contradiction NO].
    destruct (addDepend_spec _ _ _ _ _ E) as (done & (rest & D & R) & _ & S & _). specialize (R eq_refl). subst rest. rewrite app_nil_r in D. apply map_some_inj in D. subst done.
    unfold depends in S. rewrite S. rewrite IH. cbn [says]. destruct (Nat.eqb_spec e a) as [->|NE]; cbn [andb].
    + destruct (memb b on) eqn:M; cbn [andb].
      * apply memb_in in M. destruct (Nat.eqb_spec a b) as [->|AB]; cbn [negb]; [split; [intros [H|(_ & _ & H)]; [exact H|congruence]|intros H; now left]|].
        split; [reflexivity|]. intros _. right. repeat split; auto.
      * split; [intros [H|(_ & H & _)]; [exact H|]|intros H; now left]. apply memb_in in H. congruence.
    + split; [intros [H|(H & _)]; [exact H|congruence]|intros H; now left].
  - destruct (exist _ _); [|apply IH]. destruct (removeDepend _ _ _) as [g ok] eqn:E. cbn [fst snd r_g] in *. destruct ok.
    + destruct (removeDepend_spec _ _ _ _ (edges_all h) E) as (_ & _ & S & _). unfold depends in S. rewrite S, IH. cbn [says].
      destruct (Nat.eqb_spec e a) as [->|NE]; cbn [andb]; [destruct (Nat.eqb_spec d b) as [->|ND]|].
      * split; [intros [_ H]; exfalso; apply H; auto|discriminate].
      * split; [tauto|]. intros H. split; [exact H|]. intros [_ F]. congruence.
      * split; [tauto|]. intros H. split; [exact H|]. intros [F _]. congruence.
    + unfold removeDepend in E. destruct (e_init _); [injection E as <-; apply IH|]. destruct (negb _); [injection E as <-; apply IH|discriminate].
Qed.

(** Who belongs to a group is one of its children, with every interface *)
Definition up_ok (s : lst) : Prop := forall e g, l_belong s e = Some g -> In e (l_kids s g).
Lemma up_managers n s e s1 : up_ok s -> give_managers n s e = Some s1 -> up_ok s1.
Proof. intros H E. unfold give_managers in E. destruct (walk _ _ _); [|discriminate]. injection E as <-. exact H. Qed.
Lemma up_add n s g e s1 : up_ok s -> l_add n s g e = Some s1 -> up_ok s1.
Proof.
  intros H E. assert (U : up_ok (mkL (l_all s) (l_group s) (l_region s) (upd (l_kids s) g (l_kids s g ++ [e])) (upd (l_belong s) e (Some g)) (l_mgr s) (l_roots s))).
  { intros x y. cbn [l_belong l_kids]. unfold upd. destruct (Nat.eqb_spec x e) as [->|NE].
    - intros [= <-]. rewrite Nat.eqb_refl. apply in_or_app. right. now left.
    - intros B. apply H in B. destruct (Nat.eqb_spec y g) as [->|]; [apply in_or_app; now left|exact B]. }
  unfold l_add in E. destruct (l_mgr s g); [eapply up_managers; [exact U|exact E]|]. injection E as <-. exact U.
Qed.
Lemma up_add_all n g els : forall s s1, up_ok s -> l_add_all n s g els = Some s1 -> up_ok s1.
Proof.
  induction els as [|e r IH]; intros s s1 H E; cbn [l_add_all] in E; [injection E as <-; exact H|]. destruct (l_add n s g e) as [s2|] eqn:A; [|discriminate]. eapply IH; [eapply up_add; eassumption|exact E].
Qed.
Lemma up_inner n s e : up_ok s -> up_ok (fst (l_inner n s e)).
Proof. intros H. unfold l_inner. destruct (give_managers n s e) as [s1|] eqn:E; [|exact H]. pose proof (up_managers _ _ _ _ H E) as U. exact U. Qed.
Lemma up_make n s a b : up_ok s -> up_ok (l_make n a b s).
Proof. intros H. exact H. Qed.
Lemma up_step n s o : up_ok s -> up_ok (fst (l_step n s o)).
Proof.
  intros H. destruct o as [|rg els| |g|e|g els|e]; cbn [l_step].
  - now apply up_make.
  - destruct (exist s els); [|exact H]. destruct (l_add_all _ _ _ _) as [s1|] eqn:E; [|exact H]. eapply up_add_all; [|exact E]. now apply up_make.
  - apply up_inner. now apply up_make.
  - destruct (exist s [g] && l_group s g); [|exact H]. destruct (l_mgr s g); [exact H|now apply up_inner].
  - destruct (exist s [e]); [|exact H]. destruct (l_belong s e); [exact H|]. destruct (l_mgr s e); [exact H|now apply up_inner].
  - destruct (exist s (g :: els) && l_group s g); [|exact H]. destruct (l_add_all _ _ _ _) as [s1|] eqn:E; [|exact H]. eapply up_add_all; eassumption.
  - destruct (exist s [e]); [now apply up_inner|exact H].
Qed.
Lemma up_all h : up_ok (l_after h).
Proof. induction h as [|o h IH] using rev_ind; [intros e g F; discriminate F|]. rewrite l_after_snoc. now apply up_step. Qed.
