From Verif Require Import LevelModel LevelSpec PipeProofs.
From Coq Require Import ZArith Lia Permutation.
Local Open Scope nat_scope.
Local Open Scope list_scope.

(** Trees and their parts *)
Definition kids (t : elt) : list elt := match t with Node _ => [] | Plain _ cs | Region _ cs => cs end.
Fixpoint subs (t : elt) : list elt := t :: match t with Node _ => [] | Plain _ cs | Region _ cs => flat_map subs cs end.
Lemma subs_eq t : subs t = t :: flat_map subs (kids t).
Proof. destruct t; reflexivity. Qed.
Lemma flat_map_map {A B C} (g : B -> C) (f : A -> list B) l : map g (flat_map f l) = flat_map (fun x => map g (f x)) l.
Proof. induction l; cbn; [reflexivity|]. now rewrite map_app, IHl. Qed.
Lemma flat_map_ext_in {A B} (f g : A -> list B) l : (forall x, In x l -> f x = g x) -> flat_map f l = flat_map g l.
Proof. induction l; intro H; cbn; [reflexivity|]. rewrite H by now left. f_equal. apply IHl. intros. apply H. now right. Qed.
Lemma ids_subs t : map eid (subs t) = ids t.
Proof.
  induction t as [e|e cs IH|e cs IH] using elt_rect'; [reflexivity| |];
  cbn [subs ids map eid]; f_equal; rewrite flat_map_map; apply flat_map_ext_in; now apply Forall_forall.
Qed.
Lemma ids_forest l : map eid (flat_map subs l) = flat_map ids l.
Proof. rewrite flat_map_map. apply flat_map_ext_in. intros; apply ids_subs. Qed.
Lemma subs_self t : In t (subs t).
Proof. rewrite subs_eq. now left. Qed.
Lemma eid_ids t : In (eid t) (ids t).
Proof. rewrite <- ids_subs. apply in_map, subs_self. Qed.
Lemma subs_kid t u v : In u (subs t) -> In v (kids u) -> In v (subs t).
Proof.
  induction t as [e|e cs IH|e cs IH] using elt_rect'; rewrite (subs_eq _); cbn [kids]; intros [<-|H] K.
  1: destruct K. 1: destruct H.
  1,3: right; apply in_flat_map; exists v; split; [exact K|apply subs_self].
  all: rewrite Forall_forall in IH; apply in_flat_map in H; destruct H as (c & C & H); right; apply in_flat_map; exists c; split; [exact C|]; now apply IH.
Qed.
Lemma nodup_map_inj {A B} (f : A -> B) l x y : NoDup (map f l) -> In x l -> In y l -> f x = f y -> x = y.
Proof.
  induction l as [|a l IH]; cbn; intros N X Y E; [easy|]. inversion N as [|? ? N1 N2]; subst.
  destruct X as [->|X], Y as [->|Y]; [easy| | |now apply IH].
  - destruct N1. rewrite E. now apply in_map.
  - destruct N1. rewrite <- E. now apply in_map.
Qed.

(** The callbacks of a part are a block of those of the whole *)
Lemma flat_map_block {A B} (f : A -> list B) l x : In x l -> exists a b, flat_map f l = a ++ f x ++ b.
Proof.
  intro H. apply in_split in H. destruct H as (l1 & l2 & ->). exists (flat_map f l1), (flat_map f l2).
  now rewrite flat_map_app.
Qed.
Lemma block_sub b t u : In u (subs t) -> exists x y, life_calls b t = x ++ life_calls b u ++ y.
Proof.
  induction t as [e|e cs IH|e cs IH] using elt_rect'; rewrite (subs_eq _); cbn [kids]; intros [<-|H];
    try (exists [], []; now rewrite app_nil_r).
  - rewrite Forall_forall in IH. apply in_flat_map in H. destruct H as (c & C & H). destruct (IH c C H) as (x & y & E).
    destruct (flat_map_block (life_calls b) cs c C) as (p & q & F). exists (p ++ x), (y ++ q). cbn [life_calls]. rewrite F, E.
    now rewrite <- !app_assoc.
  - rewrite Forall_forall in IH. apply in_flat_map in H. destruct H as (c & C & H). destruct (IH c C H) as (x & y & E).
    destruct (flat_map_block (life_calls b) cs c C) as (p & q & F). cbn [life_calls]. rewrite F, E.
    exists ((if b then [KDag (Some e)] else []) ++ p ++ x), (y ++ q). now rewrite <- !app_assoc.
Qed.
Definition the_call (b : bool) (e : nat) : pcall := if b then KInit e else KDestroy e.
Lemma call_sub b t a : In (Node a) (subs t) -> In (the_call b a) (life_calls b t).
Proof.
  intro H. destruct (block_sub b _ _ H) as (x & y & ->). apply in_or_app; right. cbn. now left.
Qed.
Lemma before_mid {A} (l1 l2 l3 : list A) x y : before l2 x y -> before (l1 ++ l2 ++ l3) x y.
Proof.
  intros (a & b & c & ->). exists (l1 ++ a), b, (c ++ l3). rewrite <- !app_assoc. cbn. now rewrite <- app_assoc.
Qed.
Lemma before_flat {A B} (f : A -> list B) l u v x y : before l u v -> In x (f u) -> In y (f v) -> before (flat_map f l) x y.
Proof.
  intros (a & b & c & ->) X Y. apply in_split in X. apply in_split in Y. destruct X as (x1 & x2 & X), Y as (y1 & y2 & Y).
  exists (flat_map f a ++ x1), (x2 ++ flat_map f b ++ y1), (y2 ++ flat_map f c).
  rewrite flat_map_app. cbn [flat_map]. rewrite flat_map_app. cbn [flat_map]. rewrite X, Y. rewrite <- !app_assoc. cbn [app]. rewrite <- ?app_assoc. reflexivity.
Qed.

(** The sorter is a strict total order *)
Section Ord.
Variable lev : nat -> Z.
Lemma less_irrefl a : less lev a a = false.
Proof. unfold less. rewrite Z.eqb_refl. apply Nat.ltb_irrefl. Qed.
Lemma less_spec a b : less lev a b = true <-> (lev a < lev b)%Z \/ (lev a = lev b /\ a < b).
Proof.
  unfold less. destruct (Z.eqb_spec (lev a) (lev b)) as [E|N].
  - rewrite Nat.ltb_lt. split; [intro; right; now split|]. intros [H|[_ H]]; [lia|exact H].
  - rewrite Z.ltb_lt. split; [intro; now left|]. intros [H|[H _]]; [exact H|lia].
Qed.
Lemma less_trans a b c : less lev a b = true -> less lev b c = true -> less lev a c = true.
Proof. rewrite !less_spec. lia. Qed.
Lemma less_total a b : a <> b -> less lev a b = false -> less lev b a = true.
Proof.
  intros N H. destruct (less lev b a) eqn:E; [reflexivity|exfalso].
  assert (A : ~ less lev a b = true) by congruence. assert (B : ~ less lev b a = true) by congruence.
  rewrite less_spec in A, B. lia.
Qed.
(** In order, for every pair. *)
Fixpoint sorted (l : list elt) : Prop :=
  match l with [] => True | a :: r => (forall b, In b r -> less lev (eid a) (eid b) = true) /\ sorted r end.
Lemma in_order_sorted l : in_order lev l = true <-> sorted l.
Proof.
  induction l as [|a r IH]; [easy|]. cbn [in_order sorted]. rewrite andb_true_iff, IH. split.
  - intros [H S]. split; [|exact S]. destruct r as [|b r]; [easy|]. intros c [<-|C]; [exact H|]. destruct S as [S _].
    eapply less_trans; [exact H|now apply S].
  - intros [H S]. split; [|exact S]. destruct r as [|b r]; [reflexivity|]. apply H. now left.
Qed.
Lemma place_perm t l : ~ In (eid t) (map eid l) -> Permutation (t :: l) (place lev t l).
Proof.
  induction l as [|u r IH]; intro N; [reflexivity|]. cbn [place]. destruct (less lev (eid t) (eid u)) eqn:E; [reflexivity|].
  rewrite less_total; [|intro H; apply N; now left|exact E]. etransitivity; [apply perm_swap|]. constructor. apply IH.
  intro H. apply N. now right.
Qed.
Lemma place_sorted t l : ~ In (eid t) (map eid l) -> sorted l -> sorted (place lev t l).
Proof.
  induction l as [|u r IH]; intros N S; [cbn; split; [easy|exact I]|]. cbn [place]. destruct (less lev (eid t) (eid u)) eqn:E.
  - cbn [sorted]. split; [|exact S]. destruct S as [S _]. intros b [<-|B]; [exact E|]. eapply less_trans; [exact E|now apply S].
  - assert (L : less lev (eid u) (eid t) = true) by (apply less_total; [intro H; apply N; now left|exact E]). rewrite L.
    destruct S as [S1 S2]. assert (N' : ~ In (eid t) (map eid r)) by (intro H; apply N; now right). cbn [sorted]. split; [|now apply IH].
    intros b B. eapply Permutation_in in B; [|symmetry; now apply place_perm]. destruct B as [<-|B]; [exact L|now apply S1].
Qed.
Lemma emplace_all_spec ts : forall l l', emplace_all lev ts l = Some l' -> NoDup (map eid (ts ++ l)) ->
  Permutation (ts ++ l) l' /\ (sorted l -> sorted l').
Proof.
  induction ts as [|t r IH]; intros l l' E N; [injection E as <-; split; [reflexivity|easy]|].
  cbn [emplace_all] in E. unfold emplace in E. destruct (in_order lev l) eqn:O; [|discriminate].
  cbn [app map] in N. inversion N as [|? ? N1 N2]; subst.
  assert (NL : ~ In (eid t) (map eid l)) by (intro H; apply N1; rewrite map_app; apply in_or_app; now right).
  pose proof (place_perm t l NL) as P.
  assert (Q : Permutation (t :: r ++ l) (r ++ place lev t l)).
  { etransitivity; [apply Permutation_middle|]. now apply Permutation_app_head. }
  destruct (IH _ _ E) as [P2 S2].
  { eapply Permutation_NoDup; [apply Permutation_map; exact Q|]. constructor; assumption. }
  split; [etransitivity; [exact Q|exact P2]|]. intro S. apply S2. now apply place_sorted.
Qed.
Lemma emplace_all_some ts : forall l, sorted l -> NoDup (map eid (ts ++ l)) -> exists l', emplace_all lev ts l = Some l'.
Proof.
  induction ts as [|t r IH]; intros l S N; [eexists; reflexivity|]. cbn [emplace_all]. unfold emplace.
  rewrite (proj2 (in_order_sorted l) S). cbn [app map] in N. inversion N as [|? ? N1 N2]; subst.
  assert (NL : ~ In (eid t) (map eid l)) by (intro H; apply N1; rewrite map_app; apply in_or_app; now right).
  apply IH; [now apply place_sorted|]. eapply Permutation_NoDup; [apply Permutation_map|].
  - etransitivity; [apply Permutation_middle|]. apply Permutation_app_head. apply place_perm; exact NL.
  - constructor; assumption.
Qed.
Lemma sorted_before l u v : sorted l -> In u l -> In v l -> (lev (eid u) < lev (eid v))%Z -> before l u v.
Proof.
  induction l as [|a r IH]; intros S U V L; [easy|]. destruct S as [S1 S2]. destruct U as [->|U], V as [->|V].
  - lia.
  - apply in_split in V. destruct V as (x & y & ->). exists [], x, y. reflexivity.
  - pose proof (S1 _ U) as H. apply less_spec in H. lia.
  - destruct (IH S2 U V L) as (x & y & z & ->). exists (a :: x), y, z. reflexivity.
Qed.
End Ord.
Lemma sorted_ext f g l : (forall t, In t l -> f (eid t) = g (eid t)) -> sorted f l -> sorted g l.
Proof.
  induction l as [|a r IH]; intros E S; [exact I|]. destruct S as [S1 S2]. split; [|apply IH; [intros; apply E; now right|exact S2]].
  intros b B. specialize (S1 b B). unfold less in *. rewrite <- (E a), <- (E b) by (try (right; exact B); now left). exact S1.
Qed.

(** Taking elements out of the free ones *)
Lemma take_spec e l t r : take e l = Some (t, r) -> eid t = e /\ Permutation l (t :: r).
Proof.
  revert t r. induction l as [|u l IH]; cbn; intros t r E; [discriminate|]. destruct (Nat.eqb_spec (eid u) e) as [U|U].
  - injection E as <- <-. now split.
  - destruct (take e l) as [[v w]|]; [|discriminate]. injection E as <- <-. destruct (IH _ _ eq_refl) as [I1 I2]. split; [exact I1|].
    rewrite I2. apply perm_swap.
Qed.
Lemma take_all_spec es : forall l ts r, take_all es l = Some (ts, r) -> map eid ts = es /\ Permutation l (ts ++ r).
Proof.
  induction es as [|e es IH]; cbn; intros l ts r E; [injection E as <- <-; now split|].
  destruct (take e l) as [[t l1]|] eqn:T; [|discriminate]. destruct (take_all es l1) as [[us l2]|] eqn:A; [|discriminate].
  injection E as <- <-. destruct (take_spec _ _ _ _ T) as [<- P]. destruct (IH _ _ _ A) as [<- Q]. split; [reflexivity|].
  rewrite P. cbn. now constructor.
Qed.
Lemma perm_flat {A B} (f : A -> list B) l l' : Permutation l l' -> Permutation (flat_map f l) (flat_map f l').
Proof.
  induction 1; cbn; [reflexivity|now apply Permutation_app_head| |now etransitivity; eassumption].
  rewrite !app_assoc. apply Permutation_app_tail. apply Permutation_app_comm.
Qed.
Lemma nodup_roots l : NoDup (flat_map ids l) -> NoDup (map eid l).
Proof.
  induction l as [|t l IH]; cbn; [constructor|]. intro N. constructor.
  - intro H. apply in_map_iff in H. destruct H as (u & E & U). assert (D : ~ (In (eid t) (ids t) /\ In (eid t) (flat_map ids l))).
    { intros [H1 H2]. clear - N H1 H2. induction (ids t) as [|x r IHr]; [easy|]. cbn in N. inversion N as [|? ? N1 N2]; subst.
      destruct H1 as [->|H1]; [apply N1, in_or_app; now right|now apply IHr]. }
    apply D. split; [apply eid_ids|]. rewrite <- E. apply in_flat_map. exists u. split; [exact U|apply eid_ids].
  - apply IH. clear - N. induction (ids t) as [|x r IHr]; [exact N|]. cbn in N. inversion N; subst. now apply IHr.
Qed.
Lemma nodup_app_r {A} (l1 l2 : list A) : NoDup (l1 ++ l2) -> NoDup l2.
Proof. induction l1; [easy|]. cbn. intro H. inversion H; subst. now apply IHl1. Qed.
Lemma nodup_app_l {A} (l1 l2 : list A) : NoDup (l1 ++ l2) -> NoDup l1.
Proof.
  induction l1; cbn; intro H; [constructor|]. inversion H; subst. constructor; [|now apply IHl1].
  intro X. now apply H2, in_or_app; left.
Qed.

(** The invariant of a program run *)
Definition forest (s : lst) : list elt := l_free s ++ l_top s.
Definition parts (s : lst) : list elt := flat_map subs (forest s).
Record inv (p : list lop) (s : lst) : Prop := mkI {
  i_lev : forall e, l_lev s e = level_of p e;
  i_nodup : NoDup (flat_map ids (forest s));
  i_top : forall e, In (LRegister e) p <-> In e (map eid (l_top s));
  i_node : forall e, In (LNode e) p -> In (Node e) (parts s);
  i_group : forall k g cs, In (LGroup k g cs) p -> exists us, In (if k then Region g us else Plain g us) (parts s) /\
     (forall c, In c cs <-> In c (map eid us)) /\ (k = false -> map eid us = cs);
  i_region : forall g us, In (Region g us) (parts s) -> exists cs, In (LGroup true g cs) p /\ forall c, In c (map eid us) -> In c cs;
  i_sorted : in_time p -> sorted (l_lev s) (l_top s) /\ forall g us, In (Region g us) (parts s) -> sorted (l_lev s) us }.
Lemma lrun_app p : forall s q, lrun s (p ++ q) = match lrun s p with LDone s' => lrun s' q | x => x end.
Proof. induction p as [|o p IH]; intros s q; [reflexivity|]. cbn. destruct (lstep s o); [apply IH|easy|easy]. Qed.
Lemma level_snoc p o e : level_of (p ++ [o]) e = match o with LLevel x z => if x =? e then z else level_of p e | _ => level_of p e end.
Proof. unfold level_of. rewrite fold_left_app. reflexivity. Qed.
Lemma in_time_snoc p o : in_time (p ++ [o]) -> in_time p.
Proof. intros H a e z b ->. apply (H a e z (b ++ [o])). now rewrite <- app_assoc. Qed.
Lemma used_spec e s : used e s = true <-> In e (flat_map ids (forest s)).
Proof. apply memb_in. Qed.
Lemma inv_start : inv [] l_start.
Proof.
  constructor; cbn; try easy. constructor.
Qed.

Lemma snoc_in_iff {A} (x y : A) l : In x (l ++ [y]) <-> In x l \/ x = y.
Proof. rewrite in_app_iff. cbn. intuition. Qed.

Lemma inv_step p s o s' : inv p s -> lstep s o = LDone s' -> inv (p ++ [o]) s'.
Proof.
  intros [IL IN IT INO IG IR IS] E. destruct o as [e|k e cs|e z|e]; cbn [lstep] in E.
  - (* createGNode *)
    destruct (used e s) eqn:U; [discriminate|]. injection E as <-.
    assert (NU : ~ In e (flat_map ids (forest s))) by (rewrite <- used_spec; congruence).
    assert (PA : forall t, In t (Node e :: parts s) <-> In t (parts (mkL (Node e :: l_free s) (l_top s) (l_lev s)))) by easy.
    constructor; cbn [l_lev l_top].
    + intro x. rewrite level_snoc. apply IL.
    + cbn. constructor; assumption.
    + intro x. rewrite snoc_in_iff, <- IT. split; [intros [H|H]; [exact H|discriminate]|now left].
    + intros x. rewrite snoc_in_iff. intros [H|H]; apply PA; [right; now apply INO|injection H as <-; now left].
    + intros k g cs. rewrite snoc_in_iff. intros [H|H]; [|discriminate]. destruct (IG k g cs H) as (us & A & B). exists us. split; [apply PA; now right|exact B].
    + intros g us H. apply PA in H. destruct H as [H|H]; [discriminate|]. destruct (IR g us H) as (cs & A & B). exists cs. split; [apply snoc_in_iff; now left|exact B].
    + intro TI. destruct (IS (in_time_snoc _ _ TI)) as [S1 S2]. split; [exact S1|]. intros g us H. apply PA in H. destruct H as [H|H]; [discriminate|now apply (S2 g)].
  - (* createGGroup *)
    destruct (used e s) eqn:U; [discriminate|]. assert (NU : ~ In e (flat_map ids (forest s))) by (rewrite <- used_spec; congruence).
    destruct (take_all cs (l_free s)) as [[ts fr]|] eqn:T; [|discriminate]. destruct (take_all_spec _ _ _ _ T) as [TE TP].
    assert (X : exists us, s' = mkL ((if k then Region e us else Plain e us) :: fr) (l_top s) (l_lev s) /\ Permutation ts us /\
       (k = false -> us = ts) /\ (k = true -> sorted (l_lev s) us)).
    { destruct k.
      - destruct (emplace_all (l_lev s) ts []) as [us|] eqn:EA; [|discriminate]. injection E as <-. exists us. split; [reflexivity|].
        destruct (emplace_all_spec _ _ _ _ EA) as [P S].
        + rewrite app_nil_r. apply nodup_roots. unfold forest in IN. rewrite flat_map_app in IN. apply nodup_app_l in IN.
          eapply Permutation_NoDup in IN; [|apply perm_flat; exact TP]. rewrite flat_map_app in IN. now apply nodup_app_l in IN.
        + rewrite app_nil_r in P. split; [exact P|]. split; [easy|]. intros _. now apply S.
      - injection E as <-. exists ts. split; [reflexivity|]. split; [reflexivity|]. split; easy. }
    clear E. destruct X as (us & -> & UP & UF & UT). set (t := if k then Region e us else Plain e us).
    assert (ET : eid t = e) by (destruct k; reflexivity).
    assert (PF : Permutation (forest s) (us ++ fr ++ l_top s)).
    { unfold forest. rewrite app_assoc. apply Permutation_app_tail. rewrite TP. now apply Permutation_app_tail. }
    assert (PA : forall u, In u (parts (mkL (t :: fr) (l_top s) (l_lev s))) <-> u = t \/ In u (parts s)).
    { intro u. unfold parts, forest. cbn [l_free l_top app flat_map]. rewrite (subs_eq t). cbn [app]. rewrite <- flat_map_app.
      assert (Q : Permutation (flat_map subs (forest s)) (flat_map subs (kids t ++ fr ++ l_top s))).
      { apply perm_flat. rewrite PF. subst t. destruct k; reflexivity. }
      fold (forest s). cbn [In]. split.
      - intros [<-|H]; [now left|]. right. eapply Permutation_in; [symmetry; exact Q|]. exact H.
      - intros [->|H]; [now left|]. right. eapply Permutation_in; [exact Q|]. exact H. }
    assert (EQ : forall c, In c cs <-> In c (map eid us)).
    { intro c. rewrite <- TE. split; intro H; (eapply Permutation_in; [apply Permutation_map|exact H]); [exact UP|now symmetry]. }
    constructor; cbn [l_lev l_top].
    + intro x. rewrite level_snoc. apply IL.
    + assert (Q : Permutation (flat_map ids (forest (mkL (t :: fr) (l_top s) (l_lev s)))) (e :: flat_map ids (forest s))).
      { unfold forest at 1. cbn [l_free l_top app flat_map]. replace (ids t) with (e :: flat_map ids us) by (subst t; destruct k; reflexivity).
        cbn [app]. constructor. rewrite <- flat_map_app. apply perm_flat. now symmetry. }
      eapply Permutation_NoDup; [symmetry; exact Q|]. constructor; assumption.
    + intro x. rewrite snoc_in_iff, <- IT. split; [intros [H|H]; [exact H|discriminate]|now left].
    + intros x. rewrite snoc_in_iff. intros [H|H]; [|discriminate]. apply PA. right. now apply INO.
    + intros k' g cs'. rewrite snoc_in_iff. intros [H|H].
      * destruct (IG k' g cs' H) as (us' & A & B). exists us'. split; [apply PA; now right|exact B].
      * injection H as -> -> ->. exists us. split; [apply PA; now left|]. split; [exact EQ|]. intro K. now rewrite (UF K).
    + intros g us' H. apply PA in H. destruct H as [H|H].
      * subst t. destruct k; [|discriminate]. injection H as -> ->. exists cs. split; [apply snoc_in_iff; now right|]. intros c C. now apply EQ.
      * destruct (IR g us' H) as (cs' & A & B). exists cs'. split; [apply snoc_in_iff; now left|exact B].
    + intro TI. destruct (IS (in_time_snoc _ _ TI)) as [S1 S2]. split; [exact S1|]. intros g us' H. apply PA in H. destruct H as [H|H]; [|now apply (S2 g)].
      subst t. destruct k; [|discriminate]. injection H as -> ->. now apply UT.
  - (* setLevel *)
    destruct (used e s) eqn:U; [|discriminate]. injection E as <-. constructor; cbn [l_lev l_top]; try assumption.
    + intro x. rewrite level_snoc. unfold upd. rewrite (Nat.eqb_sym e x). destruct (x =? e); [reflexivity|apply IL].
    + intro x. rewrite snoc_in_iff, <- IT. split; [intros [H|H]; [exact H|discriminate]|now left].
    + intros x. rewrite snoc_in_iff. intros [H|H]; [|discriminate]. now apply INO.
    + intros k g cs. rewrite snoc_in_iff. intros [H|H]; [|discriminate]. now apply IG.
    + intros g us H. destruct (IR g us H) as (cs & A & B). exists cs. split; [apply snoc_in_iff; now left|exact B].
    + intro TI. destruct (IS (in_time_snoc _ _ TI)) as [S1 S2]. destruct (TI p e z [] eq_refl) as [N1 N2]. split.
      * eapply sorted_ext; [|exact S1]. intros t H. unfold upd. destruct (Nat.eqb_spec (eid t) e) as [X|X]; [|reflexivity].
        destruct N1. apply IT. rewrite <- X. now apply in_map.
      * intros g us H. eapply sorted_ext; [|now apply (S2 g)]. intros t HT. unfold upd. destruct (Nat.eqb_spec (eid t) e) as [X|X]; [|reflexivity].
        destruct (IR g us H) as (cs & A & B). destruct (N2 g cs A). apply B. rewrite <- X. now apply in_map.
  - (* register *)
    destruct (take e (l_free s)) as [[t fr]|] eqn:T; [|discriminate]. destruct (take_spec _ _ _ _ T) as [TE TP].
    unfold emplace in E. destruct (in_order (l_lev s) (l_top s)) eqn:O; [|discriminate]. injection E as <-.
    assert (PF : Permutation (forest s) (t :: fr ++ l_top s)) by (unfold forest; rewrite TP; reflexivity).
    assert (NT : ~ In (eid t) (map eid (l_top s))).
    { assert (N : NoDup (map eid (t :: fr ++ l_top s))).
      { apply nodup_roots. eapply Permutation_NoDup; [apply perm_flat; exact PF|exact IN]. }
      cbn in N. inversion N as [|? ? N1 N2]; subst. intro H. apply N1. rewrite map_app. apply in_or_app; now right. }
    pose proof (place_perm (l_lev s) t (l_top s) NT) as PP.
    assert (PF' : Permutation (forest s) (forest (mkL fr (place (l_lev s) t (l_top s)) (l_lev s)))).
    { rewrite PF. unfold forest. cbn [l_free l_top]. etransitivity; [apply Permutation_middle|]. now apply Permutation_app_head. }
    assert (PA : forall u, In u (parts s) <-> In u (parts (mkL fr (place (l_lev s) t (l_top s)) (l_lev s)))).
    { intro u. split; apply Permutation_in, perm_flat; [exact PF'|now symmetry]. }
    constructor; cbn [l_lev l_top].
    + intro x. rewrite level_snoc. apply IL.
    + eapply Permutation_NoDup; [apply perm_flat; exact PF'|exact IN].
    + intro x. rewrite snoc_in_iff, IT. assert (Q : In x (map eid (t :: l_top s)) <-> In x (map eid (place (l_lev s) t (l_top s)))).
      { split; apply Permutation_in, Permutation_map; [exact PP|now symmetry]. }
      rewrite <- Q. cbn [map In]. split; [intros [H|H]; [now right|injection H as ->; left; exact TE]|intros [H|H]; [right; congruence|now left]].
    + intros x. rewrite snoc_in_iff. intros [H|H]; [|discriminate]. apply PA. now apply INO.
    + intros k g cs. rewrite snoc_in_iff. intros [H|H]; [|discriminate]. destruct (IG k g cs H) as (us & A & B). exists us. split; [now apply PA|exact B].
    + intros g us H. apply PA in H. destruct (IR g us H) as (cs & A & B). exists cs. split; [apply snoc_in_iff; now left|exact B].
    + intro TI. destruct (IS (in_time_snoc _ _ TI)) as [S1 S2]. split; [now apply place_sorted|]. intros g us H. apply PA in H. now apply (S2 g).
Qed.
Lemma inv_run p s : lrun l_start p = LDone s -> inv p s.
Proof.
  revert s. induction p as [|o p IH] using rev_ind; intros s E; [injection E as <-; apply inv_start|].
  rewrite lrun_app in E. destruct (lrun l_start p) as [s1| |]; [|discriminate|discriminate]. cbn in E.
  destruct (lstep s1 o) as [s2| |] eqn:E1; [|discriminate|discriminate]. injection E as <-. eapply inv_step; [now apply IH|exact E1].
Qed.

(** A part with a given number is the only one *)
Lemma part_unique p s t u : inv p s -> In t (parts s) -> In u (parts s) -> eid t = eid u -> t = u.
Proof.
  intros I T U E. eapply (nodup_map_inj eid); [|exact T|exact U|exact E]. unfold parts. rewrite ids_forest. apply (i_nodup _ _ I).
Qed.
Lemma parts_kid s t u : In t (parts s) -> In u (kids t) -> In u (parts s).
Proof.
  intros T U. apply in_flat_map in T. destruct T as (r & R & T). apply in_flat_map. exists r. split; [exact R|]. eapply subs_kid; eassumption.
Qed.
(** What lies within an element lies in its tree *)
Lemma within_sub p s a x t : inv p s -> within p a x -> In t (parts s) -> eid t = x -> exists u, In u (subs t) /\ eid u = a /\ In u (parts s).
Proof.
  intros I W. revert t. induction W as [|k g cs c G C W IH]; intros t T E.
  - exists t. split; [apply subs_self|]. now split.
  - destruct (i_group _ _ I k g cs G) as (us & P & EQ & _). assert (t = if k then Region g us else Plain g us).
    { eapply part_unique; [exact I|exact T|exact P|]. rewrite E. destruct k; reflexivity. }
    assert (K : kids t = us) by (subst t; destruct k; reflexivity).
    apply EQ in C. apply in_map_iff in C. destruct C as (v & V & C). rewrite <- K in C.
    destruct (IH v (parts_kid _ _ _ T C) V) as (u & A & B). exists u. split; [|exact B]. rewrite (subs_eq t). right. apply in_flat_map. now exists v.
Qed.
Lemma top_part s t : In t (l_top s) -> In t (parts s).
Proof. intro H. apply in_flat_map. exists t. split; [apply in_or_app; now right|apply subs_self]. Qed.
Lemma node_call p s b a x t : inv p s -> within p a x -> In (LNode a) p -> In t (parts s) -> eid t = x -> In (the_call b a) (life_calls b t).
Proof.
  intros I W N T E. destruct (within_sub _ _ _ _ _ I W T E) as (u & A & B & C).
  assert (u = Node a) by (eapply part_unique; [exact I|exact C|now apply (i_node _ _ I)|exact B]). subst u. now apply call_sub.
Qed.
(** The order of the callbacks *)
Lemma order p s b x y c d : inv p s -> in_time p -> side_by_side p x y -> (level_of p x < level_of p y)%Z ->
  within p c x -> within p d y -> In (LNode c) p -> In (LNode d) p ->
  before (flat_map (life_calls b) (l_top s)) (the_call b c) (the_call b d).
Proof.
  intros I TI SB L WC WD NC ND. destruct (i_sorted _ _ I TI) as [S1 S2]. destruct SB as [[RX RY]|(r & cs & top & G & X & Y & RT & W)].
  - apply (i_top _ _ I) in RX. apply (i_top _ _ I) in RY. apply in_map_iff in RX. apply in_map_iff in RY.
    destruct RX as (tx & EX & RX), RY as (ty & EY & RY). apply (before_flat _ _ tx ty).
    + apply (sorted_before (l_lev s)); [exact S1|exact RX|exact RY|]. now rewrite !(i_lev _ _ I), EX, EY.
    + eapply node_call; eauto using top_part.
    + eapply node_call; eauto using top_part.
  - apply (i_top _ _ I) in RT. apply in_map_iff in RT. destruct RT as (tt & ET & RT).
    destruct (within_sub _ _ _ _ _ I W (top_part _ _ RT) ET) as (u & A & B & C).
    destruct (i_group _ _ I true r cs G) as (us & P & EQ & _). cbn [negb] in P.
    assert (u = Region r us) by (eapply part_unique; [exact I|exact C|exact P|exact B]). subst u.
    apply EQ in X. apply EQ in Y. apply in_map_iff in X. apply in_map_iff in Y. destruct X as (tx & EX & X), Y as (ty & EY & Y).
    assert (BF : before (flat_map (life_calls b) us) (the_call b c) (the_call b d)).
    { apply (before_flat _ _ tx ty).
      - apply (sorted_before (l_lev s)); [now apply (S2 r)|exact X|exact Y|]. now rewrite !(i_lev _ _ I), EX, EY.
      - eapply node_call; eauto using parts_kid.
      - eapply node_call; eauto using parts_kid. }
    destruct (block_sub b _ _ A) as (l1 & l2 & E1). cbn [life_calls] in E1.
    destruct (flat_map_block (life_calls b) _ _ RT) as (l3 & l4 & E2). rewrite E2, E1.
    apply before_mid. apply before_mid. rewrite <- (app_nil_r (flat_map (life_calls b) us)). now apply before_mid.
Qed.
