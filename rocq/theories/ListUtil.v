(** General list, counting and relation lemmas used by several components (no model content). *)
From Coq Require Export Arith Lia Bool Relations Permutation List.
Export ListNotations.

Fixpoint sumf {A} (f : A -> nat) (l : list A) : nat :=
  match l with [] => 0 | x :: r => f x + sumf f r end.

Lemma sumf_app {A} (f : A -> nat) l1 l2 : sumf f (l1 ++ l2) = sumf f l1 + sumf f l2.
Proof. induction l1 as [|x l IH]; simpl; lia. Qed.
Lemma sumf_ext {A} (f g : A -> nat) l : (forall x, In x l -> f x = g x) -> sumf f l = sumf g l.
Proof. induction l as [|x l IH]; simpl; intros H; [reflexivity|]. rewrite H, IH; auto. Qed.
Lemma sumf_zero {A} (f : A -> nat) l : (forall x, In x l -> f x = 0) -> sumf f l = 0.
Proof. induction l as [|x l IH]; simpl; intros H; [reflexivity|]. rewrite H, IH; auto. Qed.
Lemma sumf_pos {A} (f : A -> nat) l : 0 < sumf f l -> exists x, In x l /\ 0 < f x.
Proof.
  induction l as [|x l IH]; simpl; intros H; [lia|].
  destruct (f x) eqn:E; [|exists x; split; [auto|lia]].
  destruct IH as [y [Hy Hp]]; [lia|]. exists y; auto.
Qed.
Lemma sumf_in {A} (f : A -> nat) l x : In x l -> f x <= sumf f l.
Proof. induction l as [|y l IH]; simpl; [contradiction|]. intros [E|H]; [subst; lia|apply IH in H; lia]. Qed.
Lemma sumf_le {A} (f g : A -> nat) l : (forall x, In x l -> f x <= g x) -> sumf f l <= sumf g l.
Proof.
  induction l as [|x l IH]; simpl; intros H; [lia|].
  specialize (H x (or_introl eq_refl)) as H1.
  assert (sumf f l <= sumf g l) by (apply IH; auto). lia.
Qed.
Lemma sumf_map {A B} (f : B -> nat) (h : A -> B) l : sumf f (map h l) = sumf (fun x => f (h x)) l.
Proof. induction l as [|x l IH]; simpl; lia. Qed.
Lemma sumf_perm {A} (f : A -> nat) l1 l2 : Permutation l1 l2 -> sumf f l1 = sumf f l2.
Proof. induction 1; simpl; lia. Qed.
Lemma sumf_plus {A} (f g : A -> nat) l : sumf (fun x => f x + g x) l = sumf f l + sumf g l.
Proof. induction l as [|x l IH]; simpl; lia. Qed.
(** Changing the weight of a single element of a duplicate-free list. *)
Lemma sumf_change {A} (f g : A -> nat) l a :
  NoDup l -> In a l -> (forall x, In x l -> x <> a -> f x = g x) -> sumf f l + g a = sumf g l + f a.
Proof.
  induction l as [|y l IH]; simpl; intros Hnd Hin Hext; [contradiction|].
  inversion Hnd as [|? ? Hny Hnd']; subst.
  destruct Hin as [E|Hin].
  - subst y. assert (E : sumf f l = sumf g l).
    { apply sumf_ext. intros x Hx. apply Hext; [auto|]. intros E; subst; contradiction. }
    lia.
  - assert (f y = g y) by (apply Hext; [auto|]; intros E; subst; contradiction).
    assert (sumf f l + g a = sumf g l + f a) by (apply IH; auto). lia.
Qed.

Definition b2n (b : bool) : nat := if b then 1 else 0.
Definition memb (x : nat) (l : list nat) : bool := existsb (Nat.eqb x) l.
Lemma memb_in x l : memb x l = true <-> In x l.
Proof.
  unfold memb. rewrite existsb_exists. split.
  - intros [y [Hy E]]. apply Nat.eqb_eq in E; subst; exact Hy.
  - intros H; exists x; split; [exact H|apply Nat.eqb_refl].
Qed.
Lemma memb_false x l : memb x l = false <-> ~ In x l.
Proof. rewrite <- memb_in. destruct (memb x l); split; intros H; congruence. Qed.

Lemma in_dec_nat (x : nat) l : {In x l} + {~ In x l}.
Proof. apply in_dec, Nat.eq_dec. Defined.

(** A list that is not duplicate free contains a repeated element. *)
Lemma not_nodup_repeat (l : list nat) : ~ NoDup l -> exists l1 x l2 l3, l = l1 ++ x :: l2 ++ x :: l3.
Proof.
  induction l as [|a l IH]; intros H; [exfalso; apply H; constructor|].
  destruct (in_dec_nat a l) as [Hin|Hn].
  - destruct (in_split a l Hin) as [l2 [l3 E]]. exists [], a, l2, l3. simpl; rewrite E; reflexivity.
  - destruct IH as [l1 [x [l2 [l3 E]]]].
    + intros Hnd; apply H; constructor; assumption.
    + exists (a :: l1), x, l2, l3. simpl; rewrite E; reflexivity.
Qed.

(** [chain R l]: consecutive elements of [l] are related. *)
Fixpoint chain {A} (R : A -> A -> Prop) (l : list A) : Prop :=
  match l with
  | x :: ((y :: _) as r) => R x y /\ chain R r
  | _ => True
  end.
Lemma chain_tail {A} (R : A -> A -> Prop) x l : chain R (x :: l) -> chain R l.
Proof. destruct l; simpl; tauto. Qed.
Lemma chain_app_r {A} (R : A -> A -> Prop) l1 l2 : chain R (l1 ++ l2) -> chain R l2.
Proof. induction l1 as [|x l IH]; simpl; intros H; [exact H|]. apply IH. eapply chain_tail; exact H. Qed.
Lemma chain_app_l {A} (R : A -> A -> Prop) l1 l2 : chain R (l1 ++ l2) -> chain R l1.
Proof.
  induction l1 as [|x l IH]; simpl; intros H; [exact I|].
  destruct l as [|y l]; simpl in *; [exact I|]. destruct H as [H1 H2]. split; [exact H1|]. apply IH; exact H2.
Qed.
Lemma chain_trans {A} (R : A -> A -> Prop) x l y : chain R (x :: l ++ [y]) -> clos_trans A R x y.
Proof.
  revert x; induction l as [|z l IH]; simpl; intros x H.
  - destruct H as [H _]. apply t_step; exact H.
  - destruct H as [H1 H2]. apply t_trans with z; [apply t_step; exact H1|]. apply IH; exact H2.
Qed.

(** Finite sets in which every element has a predecessor inside the set contain a cycle. *)
Lemma backward_walk (R : nat -> nat -> Prop) (L : list nat) :
  (forall x, In x L -> exists y, In y L /\ R y x) ->
  forall n x, In x L -> exists l, length l = n /\ incl l L /\ chain R (l ++ [x]).
Proof.
  intros H n; induction n as [|n IH]; intros x Hx.
  - exists []; simpl; repeat split; auto. intros y [].
  - destruct (H x Hx) as [y [Hy Hr]].
    destruct (IH y Hy) as [l [Hlen [Hincl Hch]]].
    exists (l ++ [y]). repeat split.
    + rewrite app_length; simpl; lia.
    + intros z Hz. apply in_app_or in Hz. destruct Hz as [Hz|[E|[]]]; [auto|subst; exact Hy].
    + clear Hlen Hincl. induction l as [|a l IHl]; simpl in *; [auto|].
      destruct l as [|b l]; simpl in *; [destruct Hch; auto|]. destruct Hch as [H1 H2]. split; [exact H1|]. apply IHl; exact H2.
Qed.
Lemma no_minimal_cycle (R : nat -> nat -> Prop) (L : list nat) (x : nat) :
  In x L -> (forall x, In x L -> exists y, In y L /\ R y x) -> exists c, In c L /\ clos_trans nat R c c.
Proof.
  intros Hx H. destruct (backward_walk R L H (S (length L)) x Hx) as [l [Hlen [Hincl Hch]]].
  assert (Hnd : ~ NoDup l).
  { intros Hnd. pose proof (NoDup_incl_length Hnd Hincl). lia. }
  destruct (not_nodup_repeat l Hnd) as [l1 [c [l2 [l3 E]]]].
  exists c. split.
  - apply Hincl. subst l. apply in_or_app; right; left; reflexivity.
  - subst l. rewrite <- app_assoc in Hch. apply chain_app_r in Hch.
    apply (chain_trans R c l2 c).
    apply (chain_app_l R (c :: l2 ++ [c]) (l3 ++ [x])).
    replace ((c :: l2 ++ [c]) ++ l3 ++ [x]) with ((c :: l2 ++ c :: l3) ++ [x]); [exact Hch|].
    simpl. rewrite <- !app_assoc. reflexivity.
Qed.

Lemma filter_length_le {A} (f : A -> bool) l : length (filter f l) <= length l.
Proof. induction l as [|x l IH]; simpl; [lia|]. destruct (f x); simpl; lia. Qed.
Lemma NoDup_filter' {A} (f : A -> bool) l : NoDup l -> NoDup (filter f l).
Proof. apply NoDup_filter. Qed.

Lemma NoDup_app_iff {A} (l1 l2 : list A) :
  NoDup (l1 ++ l2) <-> NoDup l1 /\ NoDup l2 /\ (forall x, In x l1 -> ~ In x l2).
Proof.
  induction l1 as [|a l IH]; simpl.
  - split; [intros H; repeat split; auto; constructor|tauto].
  - rewrite NoDup_cons_iff, IH, NoDup_cons_iff, in_app_iff. split.
    + intros [Hn [H1 [H2 H3]]]. repeat split; auto.
      intros x [E|Hx]; [subst; tauto|auto].
    + intros [[Hn H1] [H2 H3]]. split; [|split; [|split]]; auto.
      intros [Ha|Ha]; [tauto|]. apply (H3 a); auto.
Qed.

(** Position-based precedence. *)
Definition before {A} (l : list A) (x y : A) : Prop := exists l1 l2 l3, l = l1 ++ x :: l2 ++ y :: l3.

Lemma incl_length_eq (l1 l2 : list nat) :
  NoDup l1 -> NoDup l2 -> incl l1 l2 -> length l1 = length l2 -> incl l2 l1.
Proof. intros H1 H2 Hi Hl. apply NoDup_length_incl; auto. lia. Qed.

Definition upd {A} (f : nat -> A) (k : nat) (v : A) : nat -> A := fun x => if Nat.eqb x k then v else f x.
Lemma upd_same {A} (f : nat -> A) k v : upd f k v k = v.
Proof. unfold upd; rewrite Nat.eqb_refl; reflexivity. Qed.
Lemma upd_other {A} (f : nat -> A) k v x : x <> k -> upd f k v x = f x.
Proof. intros H; unfold upd; destruct (Nat.eqb_spec x k); [contradiction|reflexivity]. Qed.
Lemma nodup_split {A} : forall (p q : list A) z, NoDup (p ++ z :: q) -> forall p' q', p ++ z :: q = p' ++ z :: q' -> p = p' /\ q = q'.
Proof.
  induction p as [|h p IH]; simpl; intros q z Hn p' q' Heq; apply NoDup_cons_iff in Hn; destruct Hn as [Hn1 Hn2].
  - destruct p' as [|h' p']; simpl in Heq; [injection Heq as E1; auto|].
    injection Heq as E1 E2. exfalso. apply Hn1. rewrite E2. apply in_or_app; right; left; reflexivity.
  - destruct p' as [|h' p']; simpl in Heq; injection Heq as E1 E2.
    + exfalso. apply Hn1. rewrite E1. apply in_or_app; right; left; reflexivity.
    + destruct (IH q z Hn2 p' q' E2) as [-> ->]. rewrite E1. auto.
Qed.
Lemma before_app {A} (l1 l2 : list A) x y : before l1 x y -> before (l1 ++ l2) x y.
Proof. intros [a [b [c E]]]. exists a, b, (c ++ l2). subst. rewrite <- !app_assoc. simpl. rewrite <- app_assoc. reflexivity. Qed.
Lemma before_last {A} (l : list A) x y : In x l -> before (l ++ [y]) x y.
Proof. intros H. apply in_split in H. destruct H as [a [b E]]. exists a, b, []. subst. rewrite <- app_assoc. reflexivity. Qed.
Lemma before_asym {A} (l : list A) x y : NoDup l -> before l x y -> before l y x -> False.
Proof.
  intros Hnd [a [b [c E]]] [a' [b' [c' E']]]. subst l.
  assert (E2 : a ++ x :: (b ++ y :: c) = (a' ++ y :: b') ++ x :: c') by (rewrite E', <- app_assoc; reflexivity).
  destruct (nodup_split _ _ _ Hnd _ _ E2) as [Ea _]. subst a.
  rewrite <- app_assoc in Hnd. simpl in Hnd.
  apply NoDup_remove_2 in Hnd. apply Hnd. apply in_or_app; right. apply in_or_app; right. right. apply in_or_app; right. left; reflexivity.
Qed.
Lemma before_trans {A} (l : list A) x y z : NoDup l -> before l x y -> before l y z -> before l x z.
Proof.
  intros Hnd [a [b [c E]]] [a' [b' [c' E']]]. subst l.
  assert (E2 : (a ++ x :: b) ++ y :: c = a' ++ y :: (b' ++ z :: c')) by (rewrite <- app_assoc; exact E').
  assert (Hnd2 : NoDup ((a ++ x :: b) ++ y :: c)) by (rewrite <- app_assoc; exact Hnd).
  destruct (nodup_split _ _ _ Hnd2 _ _ E2) as [_ Ec]. subst c.
  exists a, (b ++ y :: b'), c'. rewrite <- app_assoc. reflexivity.
Qed.
Lemma before_in {A} (l : list A) x y : before l x y -> In x l /\ In y l.
Proof.
  intros [a [b [c E]]]. subst. split; apply in_or_app; right; [left; reflexivity|].
  right. apply in_or_app; right; left; reflexivity.
Qed.
