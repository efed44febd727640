(** C96 and C97: distances of vectors, whatever the numbers are. *)
From Verif Require Import DistModel StatusProofs.
From Coq Require Import Lia.
Local Open Scope nat_scope.
Local Open Scope list_scope.

Section Any.
Variable K : num.
Lemma rd_data (l : list K) i : i < length l -> exists a, rd K (data K l) i = Some a /\ nth_error l i = Some a.
Proof. intro H. destruct l as [|x l]; [cbn in H; lia|]. cbn [data rd]. destruct (nth_error (x :: l) i) as [y|] eqn:E; [now exists y|]. apply nth_error_None in E. lia. Qed.
Lemma rd_out (l : list K) i : length l <= i -> rd K (data K l) i = None.
Proof. intro H. destruct l; [reflexivity|]. cbn [data rd]. now apply nth_error_None. Qed.
Lemma euc_loop_ok v1 v2 n : forall i acc, i + n <= length v1 -> i + n <= length v2 -> exists x, euc_loop K (data K v1) (data K v2) n i acc = Some x.
Proof.
  induction n as [|n IH]; intros i acc H1 H2; [now exists acc|]. cbn [euc_loop].
  destruct (rd_data v1 i ltac:(lia)) as (a & -> & _). destruct (rd_data v2 i ltac:(lia)) as (b & -> & _). apply IH; lia.
Qed.
Lemma cos_loop_ok v1 v2 n : forall i acc l1 l2, i + n <= length v1 -> i + n <= length v2 -> exists x, cos_loop K (data K v1) (data K v2) n i acc l1 l2 = Some x.
Proof.
  induction n as [|n IH]; intros i acc l1 l2 H1 H2; [now eexists|]. cbn [cos_loop].
  destruct (rd_data v1 i ltac:(lia)) as (a & -> & _). destruct (rd_data v2 i ltac:(lia)) as (b & -> & _). apply IH; lia.
Qed.
Lemma cos_loop_bad v1 v2 n : forall i acc l1 l2, i <= length v2 -> length v2 < i + n -> i + n <= length v1 -> cos_loop K (data K v1) (data K v2) n i acc l1 l2 = None.
Proof.
  induction n as [|n IH]; intros i acc l1 l2 H0 H1 H2; [lia|]. cbn [cos_loop].
  destruct (rd_data v1 i ltac:(lia)) as (a & -> & _). destruct (le_lt_dec (length v2) i) as [L|L]; [now rewrite (rd_out v2 i L)|].
  destruct (rd_data v2 i L) as (b & -> & _). apply IH; lia.
Qed.
Lemma err_check i : check_status (st_assign st_default (st_err i)) = ReturnStatus (st_err i).
Proof. reflexivity. Qed.
Lemma ok_check : check_status (st_assign st_default st_default) = Continue.
Proof. reflexivity. Qed.
Lemma data_some (l : list K) : l <> [] -> data K l = Some l.
Proof. now destruct l. Qed.
End Any.

(** C96, Euclidean distance with checking switched on: two vectors of any lengths never make it read outside them. Different
    lengths or empty vectors: an error, and [result] is left alone. Equal lengths, below 2^32: a value, with status OK. *)
Theorem C96_partial : forall (K : num) root (v1 v2 : list K) r,
  (N.of_nat (length v1) < 2 ^ 64)%N -> (N.of_nat (length v2) < 2 ^ 64)%N ->
  (exists x s, calc_vec K (euclid K root) true v1 v2 r = DDone x s) /\
  (length v1 <> length v2 \/ v1 = [] -> exists s, calc_vec K (euclid K root) true v1 v2 r = DDone r s /\ isErr s = true) /\
  (length v1 = length v2 -> v1 <> [] -> (N.of_nat (length v1) < 2 ^ 32)%N -> exists x, calc_vec K (euclid K root) true v1 v2 r = DDone x st_default).
Proof.
  intros K root v1 v2 r B1 B2. unfold calc_vec, calculate. cbn [euclid ds_check ds_calc].
  assert (G : length v1 = length v2 -> exists x, euc_calc K root (data K v1) (data K v2) (N.of_nat (length v1)) (N.of_nat (length v2)) r = DDone x st_default).
  { intro E. unfold euc_calc. rewrite Nat2N.id. destruct (euc_loop_ok K v1 v2 (length v1) 0 (n_zero K) ltac:(lia) ltac:(lia)) as (x & ->). eexists. reflexivity. }
  destruct v1 as [|a v1]; [|destruct v2 as [|b v2]].
  - cbn [data euc_check]. rewrite err_check. split; [do 2 eexists; reflexivity|]. split; [intros _; eexists; split; reflexivity|]. intros _ C. now destruct C.
  - cbn [data euc_check]. rewrite err_check. split; [do 2 eexists; reflexivity|]. split; [intros _; eexists; split; reflexivity|]. intros C. discriminate C.
  - cbn [data euc_check]. cbn [data] in G. set (n1 := length (a :: v1)) in *. set (n2 := length (b :: v2)) in *.
    destruct (N.eqb_spec (N.of_nat n1) (N.of_nat n2)) as [E|E]; cbn [negb orb].
    + apply Nat2N.inj in E. destruct (G E) as (x & Gx). destruct (N.eqb_spec (size_mul (N.of_nat n1) (N.of_nat n2)) 0) as [Z|Z].
      * rewrite err_check. split; [do 2 eexists; reflexivity|]. split; [intros _; eexists; split; reflexivity|]. intros _ _ L. exfalso. rewrite <- E in Z. unfold size_mul in Z.
        assert (M : (N.of_nat n1 * N.of_nat n1 < 2 ^ 64)%N) by (change (2 ^ 64)%N with (2 ^ 32 * 2 ^ 32)%N; now apply N.mul_lt_mono).
        rewrite N.mod_small in Z by exact M. apply N.eq_mul_0 in Z. destruct Z as [Z|Z]; apply (f_equal N.to_nat) in Z; rewrite Nat2N.id in Z; discriminate Z.
      * rewrite ok_check, Gx. split; [do 2 eexists; reflexivity|]. split; [intros [D|D]; [congruence|discriminate]|]. intros _ _ _. eexists. reflexivity.
    + rewrite err_check. split; [do 2 eexists; reflexivity|]. split; [intros _; eexists; split; reflexivity|]. intros C. congruence.
Qed.
Print Assumptions C96_partial.

(** C96 fails for the cosine distance, with checking switched on or off: whenever the first vector is the longer one, it reads
    past the end of the second, unless the product of the lengths is a multiple of 2^64. *)
Theorem C96_refuted : forall (K : num) need (v1 v2 : list K) r, v2 <> [] -> length v2 < length v1 ->
  size_mul (N.of_nat (length v1)) (N.of_nat (length v2)) <> 0%N -> calc_vec K (cosine K) need v1 v2 r = DUndef.
Proof.
  intros K need v1 v2 r Hv L Z. unfold calc_vec, calculate. cbn [cosine ds_check ds_calc].
  assert (C : cos_calc K (data K v1) (data K v2) (N.of_nat (length v1)) (N.of_nat (length v2)) r = DUndef).
  { unfold cos_calc. rewrite Nat2N.id, cos_loop_bad; [reflexivity|lia..]. }
  assert (D1 : data K v1 = Some v1) by (apply data_some; destruct v1; [cbn in L; lia|discriminate]).
  assert (D2 : data K v2 = Some v2) by (now apply data_some).
  rewrite C. destruct need; [|now rewrite ok_check]. unfold base_check. rewrite D1, D2. apply N.eqb_neq in Z. rewrite Z, ok_check. reflexivity.
Qed.
Print Assumptions C96_refuted.
(** And two vectors of 2^32 entries have a distance that the checked calculation refuses. *)
Theorem C96_refused_refuted : forall (K : num) root (v1 v2 : list K) r, N.of_nat (length v1) = (2 ^ 32)%N -> length v1 = length v2 ->
  (exists x, calc_vec K (euclid K root) false v1 v2 r = DDone x st_default) /\ exists s, calc_vec K (euclid K root) true v1 v2 r = DDone r s /\ isErr s = true.
Proof.
  intros K root v1 v2 r B E. unfold calc_vec, calculate. cbn [euclid ds_check ds_calc]. split.
  - rewrite ok_check. unfold euc_calc. rewrite Nat2N.id. destruct (euc_loop_ok K v1 v2 (length v1) 0 (n_zero K) ltac:(lia) ltac:(lia)) as (x & ->). eexists. reflexivity.
  - assert (D1 : data K v1 = Some v1) by (apply data_some; intros ->; discriminate).
    assert (D2 : data K v2 = Some v2) by (apply data_some; intros ->; rewrite E in B; discriminate).
    unfold euc_check. rewrite D1, D2, <- E, N.eqb_refl, B. change (size_mul (2 ^ 32) (2 ^ 32) =? 0)%N with true. cbn [negb orb]. rewrite err_check. eexists. split; reflexivity.
Qed.
Print Assumptions C96_refused_refuted.
Example C96_case : exists (v1 v2 : list intnum), v2 <> [] /\ length v2 < length v1 /\ size_mul (N.of_nat (length v1)) (N.of_nat (length v2)) <> 0%N /\
  calc_vec intnum (cosine intnum) true v1 v2 0%Z = DUndef /\
  calc_vec intnum (euclid intnum false) true v1 v2 7%Z = @DDone intnum 7%Z (st_err "euclidean distance dim error") /\
  calc_vec intnum (euclid intnum false) true v1 v1 7%Z = @DDone intnum 0%Z st_default /\
  calc_vec intnum (euclid intnum false) true ([1; 2; 4]%Z : list intnum) ([1; 0; 1]%Z : list intnum) 7%Z = @DDone intnum 13%Z st_default.
Proof. exists ([1; 2; 3]%Z : list intnum), ([4; 5]%Z : list intnum). repeat split; try discriminate; vm_compute; try reflexivity; try lia; discriminate. Qed.

(** C97: for any distance whatsoever. If every single calculation is defined, the batch holds one result per vector, in order:
    the value the single calculation (started with 0) gives; its status is the first error among them, OK if there is none. *)
Theorem C97_batch : forall (K : num) (D : dist K) need q nodes outs,
  Forall2 (fun v o => calc_vec K D need q v (n_zero K) = DDone (fst o) (snd o)) nodes outs ->
  batch K D need q nodes = BDone (map fst outs) (match find isErr (map snd outs) with Some e => e | None => st_default end).
Proof.
  intros K D need q nodes outs F. unfold batch.
  assert (X : forall rs st, batch_loop K D need q nodes rs st = BDone (rs ++ map fst outs) (st_sum st (map snd outs))).
  { induction F as [|v o nodes outs H F IH]; intros rs st; cbn [batch_loop map]; [now rewrite app_nil_r|]. rewrite H, IH, <- app_assoc. reflexivity. }
  rewrite X. cbn [app]. now rewrite st_sum_spec by reflexivity.
Qed.
Print Assumptions C97_batch.
(** With the checked Euclidean distance no list of vectors can make the batch undefined; a vector of the wrong length gets 0
    and makes the status an error. *)
Theorem C97_euclid : forall (K : num) root q nodes, (N.of_nat (length q) < 2 ^ 64)%N -> Forall (fun v => N.of_nat (length v) < 2 ^ 64)%N nodes ->
  exists rs s, batch K (euclid K root) true q nodes = BDone rs s /\ length rs = length nodes /\
    (forall i v, nth_error nodes i = Some v -> length v <> length q -> nth_error rs i = Some (n_zero K) /\ isErr s = true) /\
    (isErr s = true -> exists v, In v nodes /\ (length v <> length q \/ q = [] \/ (2 ^ 32 <= N.of_nat (length q))%N)).
Proof.
  intros K root q nodes Bq F. unfold batch.
  assert (X : forall rs0 st, exists rs s, batch_loop K (euclid K root) true q nodes rs0 st = BDone (rs0 ++ rs) s /\ length rs = length nodes /\
     (forall i v, nth_error nodes i = Some v -> length v <> length q -> nth_error rs i = Some (n_zero K) /\ isErr s = true) /\
     (isErr st = true -> isErr s = true) /\
     (isErr s = true -> isErr st = true \/ exists v, In v nodes /\ (length v <> length q \/ q = [] \/ (2 ^ 32 <= N.of_nat (length q))%N))).
  { induction F as [|v nodes Bv F IH]; intros rs0 st.
    - exists [], st. cbn. rewrite app_nil_r. split; [easy|]. split; [easy|]. split; [intros [|i] v; discriminate|]. auto.
    - cbn [batch_loop]. destruct (C96_partial K root q v (n_zero K) Bq Bv) as ((x & s & Ex) & BAD & GOOD). rewrite Ex.
      destruct (IH (rs0 ++ [x]) (st_plus st s)) as (rs & w & Eb & Lr & Hr & Hm & He). exists (x :: rs), w. rewrite Eb, <- app_assoc. split; [easy|]. split; [cbn; lia|].
      assert (PE : isErr (st_plus st s) = isErr st || isErr s) by apply st_plus_isErr.
      split; [|split].
      + intros [|i] u Hu Lu; [|now apply (Hr i u)]. injection Hu as <-. destruct BAD as (s0 & B0 & B1); [left; congruence|]. rewrite Ex in B0. injection B0 as -> ->. cbn. split; [easy|].
        apply Hm. rewrite PE, B1. apply Bool.orb_true_r.
      + intro H. apply Hm. rewrite PE, H. reflexivity.
      + intro H. apply He in H. destruct H as [H|(u & Hu & H)]; [|right; exists u; split; [now right|exact H]]. rewrite PE in H. apply Bool.orb_prop in H. destruct H as [H|H]; [now left|right].
        exists v. split; [now left|]. destruct (Nat.eq_dec (length v) (length q)) as [Eq|Nq]; [right|now left].
        destruct q as [|a q]; [now left|right]. destruct (N.le_gt_cases (2 ^ 32) (N.of_nat (length (a :: q)))) as [Y|Y]; [exact Y|]. exfalso.
        destruct (GOOD (eq_sym Eq) ltac:(discriminate) Y) as (x0 & G). rewrite Ex in G. injection G as _ ->. discriminate. }
  destruct (X [] st_default) as (rs & s & E & L & R & _ & S). exists rs, s. split; [exact E|]. split; [exact L|]. split; [exact R|]. intro H. destruct (S H) as [C|C]; [discriminate|exact C].
Qed.
Print Assumptions C97_euclid.
Example C97_case : batch intnum (euclid intnum false) true ([1; 2]%Z : list intnum) ([[1; 3]; [4]; [1; 2]; [0; 0]]%Z : list (list intnum)) =
  @BDone intnum [1; 0; 0; 5]%Z (st_err "euclidean distance dim error").
Proof. vm_compute. reflexivity. Qed.
(** C96 for a distance of the user's own: with checking off, or after a check that reports no error, the value, the status code and the definedness of calculate are those of the distance's own calc; a check
    that reports an ordinary error ends the call with that error and the result untouched; one that reports a crash makes it throw. *)
Theorem C96_own_partial : forall (K : num) (D : dist K) need (v1 v2 : list K) r,
  let n1 := N.of_nat (length v1) in let n2 := N.of_nat (length v2) in
  let chk := ds_check K D (data K v1) (data K v2) n1 n2 in
  ((need = false \/ 0 <= code chk)%Z ->
     match ds_calc K D (data K v1) (data K v2) n1 n2 r with
     | DDone x s => exists s', calc_vec K D need v1 v2 r = DDone x s' /\ code s' = code s
     | o => calc_vec K D need v1 v2 r = o
     end) /\
  ((need = true /\ code chk < 0)%Z -> code chk <> STATUS_CRASH -> calc_vec K D need v1 v2 r = DDone r chk) /\
  (need = true -> code chk = STATUS_CRASH -> calc_vec K D need v1 v2 r = DThrow).
Proof.
  intros K D need v1 v2 r n1 n2 chk. unfold calc_vec, calculate. fold n1 n2. fold chk. split; [|split].
  - intros H. assert (C : check_status (st_assign st_default (if need then chk else st_default)) = Continue).
    { destruct need; [|reflexivity]. destruct H as [H|H]; [discriminate|]. unfold check_status, st_assign, isErr. destruct chk as [c i]. cbn [code] in *.
      assert (Z0 : (c <? STATUS_OK)%Z = false) by (apply Z.ltb_ge; exact H). destruct (negb _); cbn [code]; [now rewrite Z0|reflexivity]. }
    rewrite C. destruct (ds_calc K D (data K v1) (data K v2) n1 n2 r) as [| |y s]; try easy. eexists. split; [reflexivity|].
    unfold st_assign at 1. match goal with |- code (if negb ?b then _ else _) = _ => destruct b eqn:Q end; cbn [negb code]; [now apply Z.eqb_eq in Q|easy].
  - intros [-> H] NC. destruct chk as [c i]. cbn [code] in *. unfold st_assign at 1. cbn [code st_default].
    destruct (Z.eqb_spec STATUS_OK c) as [<-|_]; [unfold STATUS_OK in H; lia|]. cbn [negb info]. unfold check_status, isErr, isCrash. cbn [code].
    replace (c <? STATUS_OK)%Z with true by (symmetry; apply Z.ltb_lt; exact H). apply Z.eqb_neq in NC. now rewrite NC.
  - intros -> H. destruct chk as [c i]. cbn [code] in *. subst c. reflexivity.
Qed.
Print Assumptions C96_own_partial.
(** With checking switched off the Euclidean distance, too, reads past the end of a second vector that is shorter. *)
Theorem C96_unchecked_refuted : forall (K : num) root (v1 v2 : list K) r, length v2 < length v1 -> calc_vec K (euclid K root) false v1 v2 r = DUndef.
Proof.
  intros K root v1 v2 r L. assert (X : forall n i acc, i <= length v2 -> length v2 < i + n -> i + n <= length v1 -> euc_loop K (data K v1) (data K v2) n i acc = None).
  { induction n as [|n IH]; intros i acc H0 H1 H2; [lia|]. cbn [euc_loop].
    destruct (rd_data K v1 i ltac:(lia)) as (a & -> & _). destruct (le_lt_dec (length v2) i) as [M|M]; [now rewrite (rd_out K v2 i M)|].
    destruct (rd_data K v2 i M) as (b & -> & _). apply IH; lia. }
  unfold calc_vec, calculate. rewrite ok_check. cbn [euclid ds_calc]. unfold euc_calc. rewrite Nat2N.id, X; [reflexivity|lia..].
Qed.
Print Assumptions C96_unchecked_refuted.
(** What a batch with an undefined calculation does: it is undefined, whatever the calculations after it are. *)
Theorem C97_undefined : forall (K : num) (D : dist K) need q nodes outs v rest,
  Forall2 (fun v o => calc_vec K D need q v (n_zero K) = DDone (fst o) (snd o)) nodes outs ->
  (calc_vec K D need q v (n_zero K) = DUndef -> batch K D need q (nodes ++ v :: rest) = BUndef) /\
  (calc_vec K D need q v (n_zero K) = DThrow -> batch K D need q (nodes ++ v :: rest) = BThrow).
Proof.
  intros K D need q nodes outs v rest F. unfold batch. generalize (@nil K) st_default. induction F as [|u o nodes outs H F IH]; intros rs st; cbn [app batch_loop].
  - split; intros ->; reflexivity.
  - rewrite H. apply IH.
Qed.
Print Assumptions C97_undefined.
Example C96_own_case : calc_vec intnum (euclid intnum false) false ([1; 2]%Z : list intnum) ([1]%Z : list intnum) 7%Z = DUndef /\
  batch intnum (euclid intnum false) false ([1; 2]%Z : list intnum) [[3; 2]%Z; [1]%Z; [1; 2]%Z] = BUndef /\
  (exists s, calc_vec intnum (mkDist intnum (fun _ _ _ _ => mkStatus 3 "note") (fun _ _ _ _ r => @DDone intnum (r + 1)%Z (mkStatus 5 "five"))) true [] [] 7%Z = @DDone intnum 8%Z s /\ code s = 5%Z) /\
  calc_vec intnum (mkDist intnum (fun _ _ _ _ => mkStatus STATUS_CRASH "x") (fun _ _ _ _ r => @DDone intnum r st_default)) true [] [] 7%Z = DThrow.
Proof. repeat split; try (vm_compute; reflexivity). eexists. split; vm_compute; reflexivity. Qed.
