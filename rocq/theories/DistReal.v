(** C98, C99: the distances on real numbers (rounding left out), and normalize on integers. *)
From Coq Require Import Reals Lra Lia.
From Verif Require Import DistModel DistProps StatusProofs ElemProofs.
Local Open Scope R_scope.

(** TSrc = TRes = exact real numbers. A division by zero gives no number (in C++: infinity or NaN); only normalize's is
    marked, the theorems about the cosine ask for vectors that are not zero. *)
Definition realnum : num := mkNum R 0 Rplus Rminus Rmult (fun a => a * a) sqrt Rdiv (fun v => if Req_EM_T v 0 then None else Some (1 / sqrt v)).

(** The usual notions. *)
Fixpoint dot (u v : list R) : R := match u, v with a :: u', b :: v' => a * b + dot u' v' | _, _ => 0 end.
Definition sub (u v : list R) : list R := map (fun p => fst p - snd p) (combine u v).
Definition norm (u : list R) : R := sqrt (dot u u).
Definition nonzero (u : list R) : Prop := exists a, In a u /\ a <> 0.

Lemma euc_fold (K : num) s1 : forall s2 p1 p2 acc, length p1 = length p2 -> length s1 = length s2 ->
  euc_loop K (Some (p1 ++ s1)%list) (Some (p2 ++ s2)%list) (length s1) (length p1) acc = Some (fold_left (fun x p => n_add K x (n_pow2 K (n_sub K (fst p) (snd p)))) (combine s1 s2) acc).
Proof.
  induction s1 as [|a s1 IH]; intros [|b s2] p1 p2 acc Hp Hs; try discriminate; [reflexivity|]. cbn [length euc_loop rd].
  rewrite nth_error_app2, Nat.sub_diag by lia. cbn [nth_error]. rewrite nth_error_app2 by lia. replace (length p1 - length p2)%nat with 0%nat by lia. cbn [nth_error combine fold_left fst snd].
  specialize (IH s2 (p1 ++ [a])%list (p2 ++ [b])%list (n_add K acc (n_pow2 K (n_sub K a b)))). rewrite <- !app_assoc, app_length in IH. cbn [app length] in IH. rewrite Nat.add_1_r in IH.
  apply IH; [rewrite app_length; cbn; lia|now injection Hs].
Qed.
Lemma cos_fold (K : num) s1 : forall s2 p1 p2 x l1 l2, length p1 = length p2 -> length s1 = length s2 ->
  cos_loop K (Some (p1 ++ s1)%list) (Some (p2 ++ s2)%list) (length s1) (length p1) x l1 l2 =
  Some (fold_left (fun x p => n_add K x (n_mul K (fst p) (snd p))) (combine s1 s2) x, fold_left (fun x a => n_add K x (n_mul K a a)) s1 l1, fold_left (fun x a => n_add K x (n_mul K a a)) s2 l2).
Proof.
  induction s1 as [|a s1 IH]; intros [|b s2] p1 p2 x l1 l2 Hp Hs; try discriminate; [reflexivity|]. cbn [length cos_loop rd].
  rewrite nth_error_app2, Nat.sub_diag by lia. cbn [nth_error]. rewrite nth_error_app2 by lia. replace (length p1 - length p2)%nat with 0%nat by lia. cbn [nth_error combine fold_left fst snd].
  specialize (IH s2 (p1 ++ [a])%list (p2 ++ [b])%list (n_add K x (n_mul K a b)) (n_add K l1 (n_mul K a a)) (n_add K l2 (n_mul K b b))). rewrite <- !app_assoc, app_length in IH. cbn [app length] in IH. rewrite Nat.add_1_r in IH.
  apply IH; [rewrite app_length; cbn; lia|now injection Hs].
Qed.
Lemma fold_dot u : forall v x, length u = length v -> fold_left (fun x p => x + fst p * snd p) (combine u v) x = x + dot u v.
Proof. induction u as [|a u IH]; intros [|b v] x L; try discriminate; cbn [combine fold_left dot fst snd]; [lra|]. rewrite IH by (now injection L). lra. Qed.
Lemma fold_sq u : forall x, fold_left (fun x a => x + a * a) u x = x + dot u u.
Proof. induction u as [|a u IH]; intro x; cbn [fold_left dot]; [lra|]. rewrite IH. lra. Qed.
Lemma fold_sub u : forall v x, length u = length v -> fold_left (fun x p => x + (fst p - snd p) * (fst p - snd p)) (combine u v) x = x + dot (sub u v) (sub u v).
Proof. induction u as [|a u IH]; intros [|b v] x L; try discriminate; cbn [combine fold_left dot sub map fst snd]; [lra|]. rewrite IH by (now injection L). fold (sub u v). lra. Qed.
Lemma dot_pos u : 0 <= dot u u.
Proof. induction u as [|a u IH]; cbn; [lra|]. pose proof (Rle_0_sqr a). unfold Rsqr in *. lra. Qed.
Lemma dot_zero u : dot u u = 0 -> Forall (eq 0) u.
Proof.
  induction u as [|a u IH]; cbn; [constructor|]. intro H. pose proof (Rle_0_sqr a) as S. unfold Rsqr in S. pose proof (dot_pos u).
  constructor; [|apply IH; lra]. symmetry. apply Rsqr_0_uniq. unfold Rsqr. lra.
Qed.
Lemma nonzero_pos u : nonzero u -> 0 < dot u u.
Proof.
  intros (a & Ha & N). destruct (dot_pos u) as [H|H]; [exact H|]. symmetry in H. apply dot_zero in H. rewrite Forall_forall in H. now destruct N; rewrite <- (H a Ha).
Qed.
Lemma dot_comm u : forall v, dot u v = dot v u.
Proof. induction u as [|a u IH]; intros [|b v]; cbn; try easy. rewrite IH. lra. Qed.
Lemma sub_length u v : length u = length v -> length (sub u v) = length u.
Proof. intro L. unfold sub. rewrite map_length, combine_length. lia. Qed.
(** Cauchy-Schwarz. *)
Lemma cauchy u : forall v, length u = length v -> dot u v * dot u v <= dot u u * dot v v.
Proof.
  induction u as [|a u IH]; intros [|b v] L; try discriminate; cbn [dot]; [lra|]. injection L as L. specialize (IH v L).
  pose proof (dot_pos u) as A. pose proof (dot_pos v) as B. set (s := dot u v) in *. set (p := dot u u) in *. set (q := dot v v) in *.
  assert (K : 2 * s * (a * b) <= p * (b * b) + a * a * q).
  { apply Rsqr_incr_0_var; [|pose proof (Rle_0_sqr a); pose proof (Rle_0_sqr b); unfold Rsqr in *; apply Rplus_le_le_0_compat; now apply Rmult_le_pos].
    unfold Rsqr. assert (X : 0 <= (a * b) * (a * b)) by apply Rle_0_sqr.
    assert (Y : (s * s) * ((a * b) * (a * b)) <= (p * q) * ((a * b) * (a * b))) by (now apply Rmult_le_compat_r).
    pose proof (Rle_0_sqr (p * (b * b) - a * a * q)) as Z. unfold Rsqr in Z. nra. }
  nra.
Qed.
Lemma cauchy_norm u v : length u = length v -> Rabs (dot u v) <= norm u * norm v.
Proof.
  intro L. unfold norm. rewrite <- sqrt_mult by apply dot_pos. rewrite <- sqrt_Rsqr_abs. apply sqrt_le_1_alt. unfold Rsqr. now apply cauchy.
Qed.
Fixpoint vadd (u v : list R) : list R := match u, v with a :: u', b :: v' => a + b :: vadd u' v' | _, _ => [] end.
Lemma dot_vadd u : forall v, length u = length v -> dot (vadd u v) (vadd u v) = dot u u + 2 * dot u v + dot v v.
Proof. induction u as [|a u IH]; intros [|b v] L; try discriminate; cbn; [lra|]. rewrite IH by (now injection L). lra. Qed.
Lemma sub_vadd u : forall v w, length u = length v -> length v = length w -> vadd (sub u v) (sub v w) = sub u w.
Proof. induction u as [|a u IH]; intros [|b v] [|c w] L1 L2; try discriminate; cbn; [easy|]. injection L1 as L1. injection L2 as L2. fold (sub u v) (sub v w) (sub u w). rewrite IH by easy. f_equal. lra. Qed.
Lemma norm_tri u v : length u = length v -> norm (vadd u v) <= norm u + norm v.
Proof.
  intro L. unfold norm at 1. rewrite dot_vadd by exact L. pose proof (cauchy_norm u v L) as C. pose proof (Rle_abs (dot u v)) as A.
  assert (P1 : 0 <= norm u) by apply sqrt_pos. assert (P2 : 0 <= norm v) by apply sqrt_pos.
  rewrite <- (sqrt_square (norm u + norm v)) by lra. apply sqrt_le_1_alt.
  assert (E1 : norm u * norm u = dot u u) by (apply sqrt_sqrt, dot_pos). assert (E2 : norm v * norm v = dot v v) by (apply sqrt_sqrt, dot_pos). nra.
Qed.
Lemma sub_sym u : forall v, length u = length v -> dot (sub u v) (sub u v) = dot (sub v u) (sub v u).
Proof. induction u as [|a u IH]; intros [|b v] L; try discriminate; cbn; [easy|]. injection L as L. fold (sub u v) (sub v u). rewrite (IH v L). lra. Qed.
Lemma sub_zero u : forall v, length u = length v -> Forall (eq 0) (sub u v) <-> u = v.
Proof.
  induction u as [|a u IH]; intros [|b v] L; try discriminate; cbn; [split; [easy|constructor]|]. injection L as L. fold (sub u v). split.
  - intro F. inversion F; subst. apply (IH v L) in H2. subst. f_equal. lra.
  - intros [= -> ->]. constructor; [lra|]. now apply (IH v L).
Qed.

(** Whether the check, if asked for, lets vectors of length n through. *)
Definition let_in (need : bool) (n : nat) : Prop := need = true -> n <> 0%nat /\ (N.of_nat n < 2 ^ 32)%N.
Lemma size_ok n : n <> 0%nat -> (N.of_nat n < 2 ^ 32)%N -> (size_mul (N.of_nat n) (N.of_nat n) =? 0)%N = false.
Proof.
  intros H L. apply N.eqb_neq. intro Z. unfold size_mul in Z.
  assert (M : (N.of_nat n * N.of_nat n < 2 ^ 64)%N) by (change (2 ^ 64)%N with (2 ^ 32 * 2 ^ 32)%N; now apply N.mul_lt_mono).
  rewrite N.mod_small in Z by exact M. apply N.eq_mul_0 in Z. destruct Z as [Z|Z]; apply (f_equal N.to_nat) in Z; rewrite Nat2N.id in Z; now apply H.
Qed.
Lemma euc_value root need (u v : list realnum) (r : realnum) : length u = length v -> let_in need (length u) ->
  calc_vec realnum (euclid realnum root) need u v r = @DDone realnum (if root then norm (sub u v) else dot (sub u v) (sub u v)) st_default.
Proof.
  intros L I. unfold calc_vec, calculate. cbn [euclid ds_check ds_calc].
  assert (C : euc_calc realnum root (data realnum u) (data realnum v) (N.of_nat (length u)) (N.of_nat (length v)) r =
    @DDone realnum (if root then norm (sub u v) else dot (sub u v) (sub u v)) st_default).
  { unfold euc_calc. rewrite Nat2N.id. destruct u as [|a u], v as [|b v]; try discriminate.
    - cbn. destruct root; [unfold norm; cbn|]; reflexivity.
    - cbn [data]. pose proof (euc_fold realnum (a :: u) (b :: v) [] [] 0 eq_refl L) as E.
      pose proof (fold_sub (a :: u) (b :: v) 0 L) as Q. rewrite Rplus_0_l in Q.
      match goal with |- match ?X with _ => _ end = _ => replace X with (Some (dot (sub (a :: u) (b :: v)) (sub (a :: u) (b :: v)))) by (rewrite <- Q; symmetry; exact E) end. reflexivity. }
  rewrite C. destruct need; [|reflexivity]. destruct (I eq_refl) as [N0 NB]. destruct u as [|a u]; [now destruct N0|]. destruct v as [|b v]; [discriminate|].
  cbn [data euc_check]. rewrite <- L, N.eqb_refl, (size_ok _ N0 NB). reflexivity.
Qed.
(** C98: on vectors of one length the Euclidean distance is a metric; without the square root it is the square of it. *)
Theorem C98_metric : forall need (u v w : list realnum) (r : realnum), length u = length v -> length v = length w -> let_in need (length u) ->
  exists uv vu vw uw, calc_vec realnum (euclid realnum true) need u v r = @DDone realnum uv st_default /\
    calc_vec realnum (euclid realnum true) need v u r = @DDone realnum vu st_default /\
    calc_vec realnum (euclid realnum true) need v w r = @DDone realnum vw st_default /\
    calc_vec realnum (euclid realnum true) need u w r = @DDone realnum uw st_default /\
    calc_vec realnum (euclid realnum false) need u v r = @DDone realnum (uv * uv) st_default /\
    0 <= uv /\ uv = vu /\ (uv = 0 <-> u = v) /\ uw <= uv + vw.
Proof.
  intros need u v w r L1 L2 I. exists (norm (sub u v)), (norm (sub v u)), (norm (sub v w)), (norm (sub u w)).
  assert (I2 : let_in need (length v)) by (now rewrite <- L1).
  split; [now apply (euc_value true)|]. split; [now apply (euc_value true)|]. split; [now apply (euc_value true)|]. split; [apply (euc_value true); [congruence|exact I]|].
  assert (SS : norm (sub u v) * norm (sub u v) = dot (sub u v) (sub u v)) by (apply sqrt_sqrt, dot_pos).
  split; [rewrite SS; now apply (euc_value false)|]. split; [apply sqrt_pos|]. split; [unfold norm; now rewrite sub_sym|]. split.
  - split.
    + intro Z. apply sub_zero; [exact L1|]. apply dot_zero. rewrite <- SS, Z. lra.
    + intros ->. assert (F : Forall (eq 0) (sub v v)) by (now apply sub_zero). assert (Z : dot (sub v v) (sub v v) = 0).
      { revert F. generalize (sub v v). induction 1 as [|x l <- F IH]; cbn; [easy|]. rewrite IH. lra. } unfold norm. rewrite Z. apply sqrt_0.
  - rewrite <- (sub_vadd u v w L1 L2). apply norm_tri. rewrite (sub_length u v L1), (sub_length v w L2). exact L1.
Qed.
Print Assumptions C98_metric.
Example C98_case : exists u v w : list R, length u = length v /\ length v = length w /\ let_in true (length u) /\ u <> v /\ v <> w /\ u <> w.
Proof. exists [1; 2], [1; 3], [2; 2]. repeat split; try discriminate; try (cbn; lia); intro H; injection H; intros; lra. Qed.

(** C99: the cosine of two vectors that are not zero lies between -1 and 1, does not depend on the order, and is 1 for a vector
    and itself. *)
Theorem C99_cosine : forall need (u v : list realnum) (r : realnum), length u = length v -> let_in need (length u) -> nonzero u -> nonzero v ->
  exists x, calc_vec realnum (cosine realnum) need u v r = @DDone realnum x st_default /\ calc_vec realnum (cosine realnum) need v u r = @DDone realnum x st_default /\
    -1 <= x <= 1 /\ x * (norm u * norm v) = dot u v /\ calc_vec realnum (cosine realnum) need u u r = @DDone realnum 1 st_default.
Proof.
  assert (V : forall need (u v : list realnum) (r : realnum), length u = length v -> let_in need (length u) ->
    calc_vec realnum (cosine realnum) need u v r = @DDone realnum (dot u v / (norm u * norm v)) st_default).
  { intros need u v r L I. unfold calc_vec, calculate. cbn [cosine ds_check ds_calc].
    assert (C : cos_calc realnum (data realnum u) (data realnum v) (N.of_nat (length u)) (N.of_nat (length v)) r = @DDone realnum (dot u v / (norm u * norm v)) st_default).
    { unfold cos_calc. rewrite Nat2N.id. destruct u as [|a u], v as [|b v]; try discriminate; [reflexivity|].
      cbn [data]. pose proof (cos_fold realnum (a :: u) (b :: v) [] [] 0 0 0 eq_refl L) as E.
      pose proof (fold_dot (a :: u) (b :: v) 0 L) as Q1. pose proof (fold_sq (a :: u) 0) as Q2. pose proof (fold_sq (b :: v) 0) as Q3. rewrite Rplus_0_l in Q1, Q2, Q3.
      match goal with |- match ?X with _ => _ end = _ => replace X with (Some (dot (a :: u) (b :: v), dot (a :: u) (a :: u), dot (b :: v) (b :: v))) by (rewrite <- Q1, <- Q2, <- Q3; symmetry; exact E) end. reflexivity. }
    rewrite C. destruct need; [|reflexivity]. destruct (I eq_refl) as [N0 NB]. destruct u as [|a u]; [now destruct N0|]. destruct v as [|b v]; [discriminate|].
    unfold base_check. cbn [data]. rewrite <- L, (size_ok _ N0 NB). reflexivity. }
  intros need u v r L I Hu Hv. exists (dot u v / (norm u * norm v)). split; [now apply V|]. split; [rewrite (dot_comm u v), (Rmult_comm (norm u)); apply V; [easy|now rewrite <- L]|].
  assert (P1 : 0 < norm u) by (apply sqrt_lt_R0, nonzero_pos, Hu). assert (P2 : 0 < norm v) by (apply sqrt_lt_R0, nonzero_pos, Hv).
  assert (P : 0 < norm u * norm v) by (now apply Rmult_lt_0_compat).
  assert (E : dot u v / (norm u * norm v) * (norm u * norm v) = dot u v) by (field; split; lra).
  split; [|split; [exact E|]].
  - pose proof (cauchy_norm u v L) as C. assert (C2 : - (norm u * norm v) <= dot u v <= norm u * norm v) by (revert C; unfold Rabs; destruct (Rcase_abs (dot u v)); intro; split; lra). split; apply (Rmult_le_reg_r (norm u * norm v)); try exact P; rewrite E; lra.
  - rewrite V by easy. f_equal. assert (SS : norm u * norm u = dot u u) by (apply sqrt_sqrt, dot_pos). rewrite SS. field. apply nonzero_pos in Hu. lra.
Qed.
Print Assumptions C99_cosine.
(** normalize turns a vector that is not zero into one of length 1 in the same direction. *)
Theorem C99_normalize_partial : forall D (u : list R), nonzero u ->
  exists w, normalize_vec realnum D false u = @NDone realnum w st_default /\ norm w = 1 /\ w = map (fun a => a / norm u) u.
Proof.
  intros D u Hu. exists (map (fun a => a / norm u) u). unfold normalize_vec. rewrite ok_check. unfold normalize.
  assert (S : sum_sq realnum u = dot u u) by (unfold sum_sq; cbn [n_add n_mul n_zero realnum]; rewrite fold_sq; lra). rewrite S. cbn [n_scale realnum].
  pose proof (nonzero_pos u Hu) as P. destruct (Req_EM_T (dot u u) 0) as [E|E]; [lra|]. fold (norm u). assert (PN : 0 < norm u) by (now apply sqrt_lt_R0).
  assert (M : map (fun x => n_mul realnum x (1 / norm u)) u = map (fun a => a / norm u) u) by (apply map_ext; intro a; cbn [n_mul realnum]; field; lra).
  split; [rewrite M; reflexivity|]. split; [|reflexivity].
  assert (G : forall l, dot (map (fun a => a / norm u) l) (map (fun a => a / norm u) l) = dot l l / (norm u * norm u)).
  { induction l as [|a l IH]; cbn [map dot]; [field; lra|]. rewrite IH. field. lra. }
  unfold norm at 1. rewrite G. assert (SS : norm u * norm u = dot u u) by (apply sqrt_sqrt, dot_pos). rewrite SS. unfold Rdiv. rewrite Rinv_r by lra. apply sqrt_1.
Qed.
Print Assumptions C99_normalize_partial.
Example C99_case : nonzero [3; 4] /\ norm [3; 4] = 5.
Proof.
  split; [exists 3; split; [now left|lra]|]. unfold norm. cbn. replace (3 * 3 + (4 * 4 + 0)) with (5 * 5) by lra. apply sqrt_square. lra.
Qed.

Local Open Scope Z_scope.
Local Open Scope list_scope.
(** With an integer type normalize reports OK and turns every vector of length above 1 into the zero vector; a vector of zeros
    makes it undefined. *)
Definition sq_sum (l : list Z) : Z := fold_left (fun acc x => acc + x * x) l 0.
Theorem C99_normalize_refuted : forall D need (l : list intnum), (need = true -> isErr (ds_check intnum D (data intnum l) (data intnum l) (N.of_nat (length l)) (N.of_nat (length l))) = false) ->
  (1 < sq_sum l -> exists s, normalize_vec intnum D need l = @NDone intnum (map (fun _ => 0) l) s /\ isErr s = false) /\
  (Forall (eq 0) l -> normalize_vec intnum D need l = NUndef).
Proof.
  intros D need l H. unfold normalize_vec. set (n := N.of_nat (length l)).
  assert (C : exists st, isErr (st_assign st_default st) = false /\ check_status (st_assign st_default (if need then ds_check intnum D (data intnum l) (data intnum l) n n else st_default)) = Continue /\
     st_assign st_default (if need then ds_check intnum D (data intnum l) (data intnum l) n n else st_default) = st_assign st_default st).
  { destruct need; [|exists st_default; repeat split]. exists (ds_check intnum D (data intnum l) (data intnum l) n n). specialize (H eq_refl). fold n in H.
    assert (E : isErr (st_assign st_default (ds_check intnum D (data intnum l) (data intnum l) n n)) = false).
    { unfold isErr in *. rewrite assign_code. exact H. }
    split; [exact E|]. split; [|reflexivity]. unfold check_status. now rewrite E. }
  destruct C as (st & E0 & E1 & E2). rewrite E1, E2. unfold normalize. change (sum_sq intnum l) with (sq_sum l). cbn [n_scale intnum]. split.
  - intro L. destruct (Z.eqb_spec (sq_sum l) 0) as [Z0|Z0]; [lia|]. destruct (Z.eqb_spec (sq_sum l) 1) as [Z1|Z1]; [lia|].
    eexists. split; [f_equal; apply map_ext; intro a; apply Z.mul_0_r|]. unfold isErr. rewrite assign_code. reflexivity.
  - intro F. assert (X : sq_sum l = 0).
    { clear -F. unfold sq_sum. induction F as [|x l <- F IH]; [reflexivity|]. exact IH. }
    rewrite X. reflexivity.
Qed.
Print Assumptions C99_normalize_refuted.
(** A check that reports an ordinary error ends normalize with that error and the vector as it was; one that reports a crash makes it throw. *)
Theorem C99_refused_partial : forall (K : num) (D : dist K) (l : list K), let n := N.of_nat (length l) in let chk := ds_check K D (data K l) (data K l) n n in
  (code chk < 0 -> code chk <> STATUS_CRASH -> normalize_vec K D true l = @NDone K l chk) /\ (code chk = STATUS_CRASH -> normalize_vec K D true l = @NThrow K).
Proof.
  intros K D l n chk. unfold normalize_vec. fold n. fold chk. destruct chk as [c i]. cbn [code]. split.
  - intros H NC. unfold st_assign at 1. cbn [code st_default]. destruct (Z.eqb_spec STATUS_OK c) as [<-|_]; [unfold STATUS_OK in H; lia|]. cbn [negb info]. unfold check_status, isErr, isCrash. cbn [code].
    replace (c <? STATUS_OK)%Z with true by (symmetry; apply Z.ltb_lt; exact H). apply Z.eqb_neq in NC. now rewrite NC.
  - intros ->. reflexivity.
Qed.
Print Assumptions C99_refused_partial.
Example C99_refused_case : normalize_vec intnum (euclid intnum true) true ([] : list intnum) = @NDone intnum [] (st_err "input is null").
Proof. vm_compute. reflexivity. Qed.
Example C99_int_case : 1 < sq_sum [3; 4] /\ normalize_vec intnum (euclid intnum true) true ([3; 4] : list intnum) = @NDone intnum [0; 0] st_default.
Proof. split; [cbn; lia|vm_compute; reflexivity]. Qed.
