(** Graph type analysis, serial path, task matrix. *)
From Verif Require Import GraphModel GraphSpec TopoProofs StaticModel StaticProofs StatusProofs EngineSeqProofs DynModel DynInv FastModel.
From Coq Require Import Lia.
Local Open Scope nat_scope.

(** Specification: [l] lists all elements once and the dependencies are exactly its consecutive pairs. *)
Definition is_chain (g : graph) (l : list nat) : Prop :=
  Permutation l (els g) /\ forall d e, edge g d e <-> exists a b, l = a ++ d :: e :: b.

Section Serial.
Variable g : graph.
Variable bind : nat -> Z.
Hypothesis Hwf : wf g.
Hypothesis Ha : acyclic g.

Definition linkable (e : nat) : bool := match calc_shape g bind e with ShLinkable => true | _ => false end.
Lemma linkable_spec e : linkable e = true <-> exists x, succ g e = [x] /\ length (dep g x) = 1 /\ bind e = bind x.
Proof.
  unfold linkable, calc_shape. destruct (succ g e) as [|x [|y l]] eqn:E; simpl.
  - split; [discriminate|]. intros [x [H _]]; discriminate.
  - destruct (Nat.eqb_spec (length (dep g x)) 1) as [H1|H1]; simpl.
    + destruct (Z.eqb_spec (bind e) (bind x)) as [H2|H2]; simpl.
      * split; [intros _; eauto|reflexivity].
      * split; [discriminate|]. intros [z [Hz [_ H]]]. inversion Hz; subst; contradiction.
    + split; [discriminate|]. intros [z [Hz [H _]]]. inversion Hz; subst; contradiction.
  - match goal with |- context [if ?b then _ else _] => destruct b end; split; try discriminate; intros [z [Hz _]]; discriminate.
Qed.

Fixpoint walk (n x : nat) : list nat :=
  x :: match n with O => [] | S n => match succ g x with [] => [] | y :: _ => walk n y end end.
Lemma walk_head n x : exists l, walk n x = x :: l.
Proof. destruct n; simpl; eauto. Qed.
Lemma walk_incl : forall n x, In x (els g) -> incl (walk n x) (els g).
Proof.
  induction n as [|n IH]; intros x Hx y Hy; simpl in Hy.
  - destruct Hy as [<-|[]]; exact Hx.
  - destruct Hy as [<-|Hy]; [exact Hx|]. destruct (succ g x) as [|z l] eqn:E; [contradiction|].
    assert (Hz : In z (els g)) by (apply (wf_succ g Hwf x Hx); rewrite E; left; reflexivity). exact (IH z Hz y Hy).
Qed.
Lemma walk_path : forall n x y, In x (els g) -> In y (tl (walk n x)) -> path g x y.
Proof.
  induction n as [|n IH]; intros x y Hx Hy; simpl in Hy; [contradiction|].
  destruct (succ g x) as [|z l] eqn:E; [contradiction|].
  assert (Hz : In z (els g)) by (apply (wf_succ g Hwf x Hx); rewrite E; left; reflexivity).
  assert (Hed : edge g x z). { split; [exact Hz|]. apply (wf_sym g Hwf); try assumption. rewrite E; left; reflexivity. }
  destruct (walk_head n z) as [w Ew]. rewrite Ew in Hy. destruct Hy as [<-|Hy]; [apply t_step; exact Hed|].
  apply t_trans with z; [apply t_step; exact Hed|]. apply IH; [exact Hz|]. rewrite Ew. exact Hy.
Qed.
Lemma walk_nodup : forall n x, In x (els g) -> NoDup (walk n x).
Proof.
  induction n as [|n IH]; intros x Hx; simpl; [repeat constructor; auto|].
  destruct (succ g x) as [|z l] eqn:E; [repeat constructor; auto|].
  assert (Hz : In z (els g)) by (apply (wf_succ g Hwf x Hx); rewrite E; left; reflexivity).
  constructor; [|apply IH; exact Hz]. intros Hin. apply (Ha x). apply (walk_path (S n) x x Hx). simpl. rewrite E. exact Hin.
Qed.
(** Along the walk, an element is followed by its first successor, unless the budget ended. *)
Lemma walk_next : forall n x a d b, walk n x = a ++ d :: b ->
  match b with
  | e :: _ => exists l, succ g d = e :: l
  | [] => succ g d = [] \/ length (walk n x) = S n
  end.
Proof.
  induction n as [|n IH]; intros x a d b H; simpl in H.
  - destruct a as [|y a]; [inversion H; subst; right; reflexivity|]. inversion H. destruct a; discriminate.
  - destruct (succ g x) as [|z l] eqn:E.
    + destruct a as [|y a]; [inversion H; subst; left; exact E|]. inversion H. destruct a; discriminate.
    + destruct a as [|y a].
      * simpl in H. injection H as <- Hb. destruct (walk_head n z) as [w Ew]. rewrite Ew in Hb. subst b. eauto.
      * simpl in H. injection H as <- H. pose proof (IH _ _ _ _ H) as K. destruct b as [|e b]; [|exact K].
        destruct K as [K|K]; [left; exact K|right]. simpl. rewrite E. simpl. rewrite K. reflexivity.
Qed.

Lemma serial_is_chain : els g <> [] -> length (fronts g) = 1 -> length (els g) - 1 = linked_size g bind ->
  exists f, fronts g = [f] /\ is_chain g (walk (length (els g)) f) /\
    (forall a d b, walk (length (els g)) f = a ++ d :: b -> match b with e :: _ => succ g d = [e] | [] => succ g d = [] end).
Proof.
  intros Hne Hfr Hlk.
  assert (Hf : exists f, fronts g = [f]) by (destruct (fronts g) as [|f [|? ?]]; simpl in Hfr; try lia; eauto).
  destruct Hf as [f Ef]. exists f. split; [exact Ef|].
  assert (Hfe : In f (els g) /\ dep g f = []).
  { assert (In f (fronts g)) by (rewrite Ef; left; reflexivity). unfold fronts in H. apply filter_In in H. destruct H as [H1 H2]. split; [exact H1|]. destruct (dep g f); [reflexivity|discriminate]. }
  destruct Hfe as [Hfe Hfd].
  set (N := length (els g)). set (L := walk N f).
  assert (HL : incl L (els g)) by (apply walk_incl; exact Hfe).
  assert (HN : NoDup L) by (apply walk_nodup; exact Hfe).
  assert (Hlen : length L <= N) by (apply NoDup_incl_length; assumption).
  assert (Hnext : forall a d b, L = a ++ d :: b -> match b with e :: _ => exists l, succ g d = e :: l | [] => succ g d = [] end).
  { intros a d b H. pose proof (walk_next N f a d b H) as K. destruct b; [|exact K]. destruct K as [K|K]; [exact K|]. fold L in K. lia. }
  (* at most one element is not linkable *)
  assert (Hone : forall x y, In x (els g) -> In y (els g) -> linkable x = false -> linkable y = false -> x = y).
  { intros x y Hx Hy Lx Ly. destruct (Nat.eq_dec x y) as [|Hxy]; [assumption|exfalso].
    assert (Hle : forall l, NoDup l -> In x l -> In y l -> length (filter linkable l) + 2 <= length l).
    { clear - Lx Ly Hxy. intros l Hn Hx Hy.
      assert (length (filter linkable l) + length (filter (fun z => negb (linkable z)) l) = length l).
      { clear. induction l as [|z l IH]; [reflexivity|]. simpl. destruct (linkable z); simpl; lia. }
      assert (2 <= length (filter (fun z => negb (linkable z)) l)).
      { change 2 with (length [x; y]). apply NoDup_incl_length; [repeat constructor; simpl; intuition|].
        intros z [<-|[<-|[]]]; apply filter_In; split; auto; [rewrite Lx|rewrite Ly]; reflexivity. }
      lia. }
    specialize (Hle (els g) (wf_els g Hwf) Hx Hy). unfold linked_size in Hlk. fold linkable in Hlk.
    change (fun e => match calc_shape g bind e with ShLinkable => true | _ => false end) with linkable in Hlk. lia. }
  (* the last element of the walk is an end *)
  assert (Ht : exists a t, L = a ++ [t] /\ succ g t = []).
  { destruct (@exists_last _ L) as [a [t E]]; [unfold L; destruct (walk_head N f) as [w Ew]; rewrite Ew; discriminate|].
    exists a, t. split; [exact E|]. exact (Hnext a t [] E). }
  destruct Ht as [la [t [ELt Ht]]].
  assert (Hte : In t (els g)) by (apply HL; rewrite ELt; apply in_or_app; right; left; reflexivity).
  assert (Lt : linkable t = false).
  { destruct (linkable t) eqn:E; [|reflexivity]. apply linkable_spec in E. destruct E as [x [E _]]. rewrite Ht in E. discriminate. }
  assert (Hlink : forall d, In d (els g) -> succ g d <> [] -> exists x, succ g d = [x] /\ length (dep g x) = 1).
  { intros d Hd Hs. destruct (linkable d) eqn:E; [apply linkable_spec in E; destruct E as [x [E1 [E2 _]]]; eauto|].
    exfalso. apply Hs. rewrite (Hone d t Hd Hte E Lt). exact Ht. }
  assert (Hnext' : forall a d b, L = a ++ d :: b -> match b with e :: _ => succ g d = [e] | [] => succ g d = [] end).
  { intros a d b H. pose proof (Hnext a d b H) as K. destruct b as [|e b]; [exact K|]. destruct K as [l K].
    assert (Hd : In d (els g)) by (apply HL; rewrite H; apply in_or_app; right; left; reflexivity).
    destruct (Hlink d Hd) as [x [E _]]; [rewrite K; discriminate|]. rewrite E in K. inversion K; subst; exact E. }
  assert (Hcov : incl (els g) L).
  { intros x Hx. destruct (in_dec_nat x L) as [|Hn]; [assumption|exfalso].
    destruct (no_minimal_cycle (edge g) (filter (fun y => negb (memb y L)) (els g)) x) as [c [_ Hc]].
    - apply filter_In. split; [exact Hx|]. apply memb_false in Hn. rewrite Hn. reflexivity.
    - intros y Hy. apply filter_In in Hy. destruct Hy as [Hy Hyl]. apply Bool.negb_true_iff, memb_false in Hyl.
      destruct (dep g y) as [|d l] eqn:Ed.
      + exfalso. apply Hyl. assert (In y (fronts g)) by (unfold fronts; apply filter_In; split; [exact Hy|rewrite Ed; reflexivity]).
        rewrite Ef in H. destruct H as [<-|[]]. unfold L. destruct (walk_head N f) as [w Ew]. rewrite Ew. left; reflexivity.
      + assert (Hdd : In d (dep g y)) by (rewrite Ed; left; reflexivity).
        assert (Hde : In d (els g)) by (apply (wf_dep g Hwf y Hy); exact Hdd).
        exists d. split; [|split; assumption]. apply filter_In. split; [exact Hde|].
        apply Bool.negb_true_iff, memb_false. intros HdL. apply Hyl.
        assert (Hs : In y (succ g d)) by (apply (wf_sym g Hwf); assumption).
        apply in_split in HdL. destruct HdL as [a [b E]]. pose proof (Hnext' a d b E) as K. destruct b as [|e b].
        * rewrite K in Hs. contradiction.
        * rewrite K in Hs. destruct Hs as [<-|[]]. rewrite E. apply in_or_app; right; right; left; reflexivity.
    - exact (Ha c Hc). }
  split; [|exact Hnext']. split.
  - apply NoDup_Permutation; [exact HN|apply Hwf|]. intros x; split; auto.
  - intros d e. split.
    + intros [He Hd].
      assert (Hde : In d (els g)) by (apply (wf_dep g Hwf e He); exact Hd).
      assert (Hs : In e (succ g d)) by (apply (wf_sym g Hwf); assumption).
      pose proof (Hcov d Hde) as HdL. apply in_split in HdL. destruct HdL as [a [b E]]. pose proof (Hnext' a d b E) as K.
      destruct b as [|x b]; rewrite K in Hs; [contradiction|]. destruct Hs as [->|[]]. eauto.
    + intros [a [b E]]. fold L in E.
      assert (He : In e (els g)) by (apply HL; rewrite E; apply in_or_app; right; right; left; reflexivity).
      assert (Hd : In d (els g)) by (apply HL; rewrite E; apply in_or_app; right; left; reflexivity).
      split; [exact He|]. apply (wf_sym g Hwf); try assumption. pose proof (Hnext' a d (e :: b) E) as K. rewrite K. left; reflexivity.
Qed.

(** The loop follows the walk and stops at the first failure. *)
Lemma serial_loop_walk res : forall n x tr st0,
  (forall a d b, walk n x = a ++ d :: b -> match b with e :: _ => succ g d = [e] | [] => succ g d = [] end) ->
  st0 = st_default ->
  serial_loop (S n) g res x st0 = Some tr ->
  (Forall (fun e => (0 <= code (res e))%Z) (walk n x) /\ tr = (seq_trace res (walk n x), st_default)) \/
  (exists p f q, walk n x = p ++ f :: q /\ Forall (fun e => (0 <= code (res e))%Z) p /\ (code (res f) < 0)%Z /\
     tr = (seq_trace res (p ++ [f]), res f)).
Proof.
  induction n as [|n IH]; intros x tr st0 Hn -> H.
  - cbn [serial_loop] in H. pose proof (Hn [] x [] eq_refl) as K. simpl in K. rewrite K in H. inversion H; subst; clear H.
    destruct (isErr (res x)) eqn:E.
    + right. exists [], x, []. rewrite st_plus_take by (assumption || reflexivity). apply isErr_code in E. simpl. auto.
    + left. rewrite st_plus_noterr by assumption. apply isErr_false in E. simpl. auto.
  - remember (S n) as m eqn:Em. cbn [serial_loop] in H. rewrite Em in Hn |- *. cbn [walk] in Hn |- *. destruct (succ g x) as [|z l] eqn:Es.
    + inversion H; subst; clear H. destruct (isErr (res x)) eqn:E.
      * right. exists [], x, []. rewrite st_plus_take by (assumption || reflexivity). apply isErr_code in E. simpl. auto.
      * left. rewrite st_plus_noterr by assumption. apply isErr_false in E. simpl. auto.
    + destruct (isErr (res x)) eqn:E.
      * rewrite st_plus_take in H by (assumption || reflexivity). rewrite E in H. inversion H; subst.
        right. exists [], x, (walk n z). apply isErr_code in E. simpl. auto.
      * rewrite st_plus_noterr in H by assumption. change (isErr st_default) with false in H. cbv iota in H.
        destruct (serial_loop m g res z st_default) as [[tr' out']|] eqn:E2; [|discriminate H].
        inversion H; subst tr; clear H. apply isErr_false in E.
        assert (Hz : forall a d b, walk n z = a ++ d :: b -> match b with e :: _ => succ g d = [e] | [] => succ g d = [] end)
          by (intros a d b Hw; apply (Hn (x :: a) d b); simpl; rewrite Hw; reflexivity).
        destruct (IH z (tr', out') st_default Hz eq_refl E2) as [[Hf Ht]|[p [f [q [Eo [Hf [Hfe Ht]]]]]]].
        { left. inversion Ht; subst. split; [constructor; assumption|reflexivity]. }
        { right. exists (x :: p), f, q. inversion Ht; subst. rewrite Eo. repeat split; auto. }
Qed.
Lemma serial_loop_total res : forall n x st0,
  (forall a d b, walk n x = a ++ d :: b -> match b with e :: _ => succ g d = [e] | [] => succ g d = [] end) ->
  serial_loop (S n) g res x st0 <> None.
Proof.
  induction n as [|n IH]; intros x st0 Hn.
  - cbn [serial_loop]. pose proof (Hn [] x [] eq_refl) as K. simpl in K. rewrite K. discriminate.
  - remember (S n) as m. cbn [serial_loop]. subst m. cbn [walk] in Hn. destruct (succ g x) as [|z l] eqn:Es; [discriminate|].
    destruct (isErr _); [discriminate|].
    destruct (serial_loop (S n) g res z _) as [[? ?]|] eqn:E2; [discriminate|]. exfalso. revert E2. apply IH.
    intros a d b Hw. apply (Hn (x :: a) d b). simpl. rewrite Hw. reflexivity.
Qed.
End Serial.

(** * Task matrix *)
Lemma matrix_loop_spec per arr : 0 < per -> forall fuel cur, length arr - cur < fuel ->
  exists rows, matrix_loop fuel per arr cur = Some rows /\ concat rows = skipn cur arr /\
    (forall r, In r rows -> 0 < length r <= per) /\
    (forall k, length arr <= cur + k * per -> length rows <= k).
Proof.
  intros Hper. induction fuel as [|fuel IH]; intros cur Hf; [lia|]. cbn [matrix_loop].
  destruct (Nat.ltb_spec cur (length arr)) as [Hc|Hc].
  - destruct (IH (cur + per)) as [rows [E [Ec [Hr Hk]]]]; [lia|]. rewrite E. eexists. split; [reflexivity|]. split; [|split].
    + cbn [concat]. rewrite Ec. destruct (Nat.ltb_spec (cur + per) (length arr)) as [H|H].
      * replace (cur + per - cur) with per by lia. replace (cur + per) with (per + cur) by lia. rewrite <- (firstn_skipn per (skipn cur arr)) at 2. f_equal.
        clear. revert arr. induction cur as [|cur IH]; intros arr; [rewrite Nat.add_0_r; reflexivity|].
        replace (per + S cur) with (S (per + cur)) by lia. destruct arr; [rewrite !skipn_nil; reflexivity|]. simpl. apply IH.
      * rewrite (@skipn_all2 _ (cur + per) arr) by lia. rewrite app_nil_r. apply firstn_all2. rewrite skipn_length. lia.
    + intros r [<-|Hr']; [|auto]. rewrite firstn_length, skipn_length. destruct (Nat.ltb_spec (cur + per) (length arr)); lia.
    + intros k Hlen. simpl. destruct k as [|k]; [lia|]. specialize (Hk k). simpl in Hlen. lia.
  - exists []. split; [reflexivity|]. split; [rewrite skipn_all2 by lia; reflexivity|]. split; [intros r []|]. intros; simpl; lia.
Qed.

Lemma per_bounds thd n : 0 < thd -> n <= thd * task_num_per_thd thd n /\ task_num_per_thd thd n = (n + thd - 1) / thd.
Proof.
  intros Ht. unfold task_num_per_thd. pose proof (Nat.div_mod n thd ltac:(lia)) as D. pose proof (Nat.mod_upper_bound n thd ltac:(lia)) as M.
  destruct (Nat.eqb_spec (n mod thd) 0) as [E|E]; simpl.
  - split; [nia|]. rewrite Nat.add_0_r. symmetry. rewrite <- (Nat.div_unique (n + thd - 1) thd (n / thd) (thd - 1)); lia.
  - split; [nia|]. symmetry. rewrite <- (Nat.div_unique (n + thd - 1) thd (n / thd + 1) (n mod thd - 1)); lia.
Qed.
Lemma parallel_matrix_spec thd arr : 0 < thd -> arr <> [] ->
  exists rows, parallel_matrix thd arr = Some (Some rows) /\ concat rows = arr /\ length rows <= thd /\
    (forall r, In r rows -> 0 < length r <= (length arr + thd - 1) / thd).
Proof.
  intros Ht Hne. unfold parallel_matrix. destruct (per_bounds thd (length arr) Ht) as [Hp1 Hp2].
  assert (Hlen : 0 < length arr) by (destruct arr; [congruence|simpl; lia]).
  assert (Hper : 0 < task_num_per_thd thd (length arr)) by (destruct (task_num_per_thd thd (length arr)); lia).
  destruct (Nat.leb_spec thd 0); [lia|]. destruct (Nat.eqb_spec (task_num_per_thd thd (length arr)) 0); [lia|].
  destruct (matrix_loop_spec _ arr Hper (S (length arr)) 0 ltac:(lia)) as [rows [E [Ec [Hr Hk]]]]. rewrite E.
  assert (Hex : existsb (fun r => is_nil r) rows = false).
  { apply Bool.not_true_iff_false. intros X. apply existsb_exists in X. destruct X as [r [Hin X]]. specialize (Hr r Hin). destruct r; [simpl in Hr; lia|discriminate]. }
  rewrite Hex. exists rows. split; [reflexivity|]. split; [exact Ec|]. split; [apply Hk; lia|]. rewrite <- Hp2. exact Hr.
Qed.
