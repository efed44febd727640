(** C133: random data have the shape and the range asked for, and sessions have their form. *)
From Verif Require Import RandModel.
Local Open Scope list_scope.

(** An engine and a distribution that keep to their range. *)
Definition in_range (draw : Z -> Z -> Z -> nat -> Z) : Prop := forall lo hi sd i, (lo <= hi -> lo <= draw lo hi sd i <= hi)%Z.

Lemma fill_eq draw lo hi sd n : forall i data, fill draw lo hi sd n i data = (data ++ map (draw lo hi sd) (seq i n), i + n).
Proof.
  induction n as [|n IH]; intros i data; cbn [fill seq map]; [now rewrite app_nil_r, Nat.add_0_r|]. rewrite IH, <- app_assoc. cbn. f_equal. lia.
Qed.
Lemma rows_eq draw lo hi sd c h : forall i data, rows draw lo hi sd h c i [] data = data ++ map (fun r => map (draw lo hi sd) (seq (i + r * c) c)) (seq 0 h).
Proof.
  induction h as [|h IH]; intros i data; cbn [rows]; [now rewrite app_nil_r|]. rewrite fill_eq. cbn [app]. rewrite IH, <- app_assoc. f_equal. cbn [seq map app]. rewrite Nat.mul_0_l, Nat.add_0_r. f_equal. rewrite <- seq_shift, map_map. apply map_ext. intro r. f_equal. f_equal. lia.
Qed.

(** A vector has the size asked for, whatever it held before; entry [i] is the [i]-th number of the engine, and all are in the range. *)
Theorem C133_vector : forall draw seed rd data dim lo hi, in_range draw -> (lo <= hi)%Z ->
  length (gen_vec draw seed rd data dim lo hi) = dim /\
  (forall i, i < dim -> nth_error (gen_vec draw seed rd data dim lo hi) i = Some (draw lo hi (seed_of seed rd) i)) /\
  Forall (fun x => lo <= x <= hi)%Z (gen_vec draw seed rd data dim lo hi).
Proof.
  intros draw seed rd data dim lo hi R L. unfold gen_vec. rewrite fill_eq. cbn [fst app]. split; [now rewrite map_length, seq_length|]. split.
  - intros i D. rewrite nth_error_map. assert (E : nth_error (seq 0 dim) i = Some i) by (rewrite (nth_error_nth' _ 0) by (now rewrite seq_length); now rewrite seq_nth). now rewrite E.
  - apply Forall_forall. intros x X. apply in_map_iff in X. destruct X as (i & <- & _). now apply R.
Qed.
(** A matrix has the number of rows asked for, each with the number of columns asked for; row by row it is the vector of all its entries. *)
Theorem C133_matrix : forall draw seed rd data v h c lo hi, in_range draw -> (lo <= hi)%Z ->
  length (gen_mat draw seed rd data h c lo hi) = h /\
  Forall (fun row => length row = c /\ Forall (fun x => lo <= x <= hi)%Z row) (gen_mat draw seed rd data h c lo hi) /\
  concat (gen_mat draw seed rd data h c lo hi) = gen_vec draw seed rd v (h * c) lo hi.
Proof.
  intros draw seed rd data v h c lo hi R L. unfold gen_mat, gen_vec. rewrite rows_eq, fill_eq. cbn [fst app]. split; [now rewrite map_length, seq_length|]. split.
  - apply Forall_forall. intros row X. apply in_map_iff in X. destruct X as (r & <- & _). split; [now rewrite map_length, seq_length|]. apply Forall_forall. intros x X. apply in_map_iff in X. destruct X as (i & <- & _). now apply R.
  - assert (G : forall n a, concat (map (fun r => map (draw lo hi (seed_of seed rd)) (seq (0 + r * c) c)) (seq a n)) = map (draw lo hi (seed_of seed rd)) (seq (a * c) (n * c))).
    { induction n as [|n IH]; intro a; [reflexivity|]. cbn [seq map concat]. rewrite IH, <- map_app. f_equal. cbn [Nat.mul]. rewrite seq_app. f_equal. f_equal. lia. }
    rewrite G. reflexivity.
Qed.
(** With a fixed seed, which is not 0, data are the same at every call, whatever the random device says; asking for more gives the same numbers first. *)
Theorem C133_seed : forall draw seed rd rd' data data' dim more lo hi, seed <> 0%Z ->
  gen_vec draw seed rd data dim lo hi = firstn dim (gen_vec draw seed rd' data' (dim + more) lo hi).
Proof.
  intros draw seed rd rd' data data' dim more lo hi N. unfold gen_vec, seed_of, real_random. destruct (Z.eqb_spec 0 seed); [congruence|]. rewrite !fill_eq. cbn [fst app]. rewrite firstn_map, seq_app, firstn_app, seq_length, Nat.sub_diag, firstn_O, app_nil_r. now rewrite firstn_all2 by (now rewrite seq_length).
Qed.

Lemma digits k : forall f n, (10 ^ Z.of_nat k <= n < 10 ^ Z.of_nat (S k))%Z -> k < f -> length (to_string f n) = S k /\ Forall (fun x => exists d, x = Dig d /\ (0 <= d <= 9)%Z) (to_string f n).
Proof.
  induction k as [|k IH]; intros [|f] n H F; try lia.
  - cbn [to_string]. change (10 ^ Z.of_nat 0)%Z with 1%Z in H. change (10 ^ Z.of_nat 1)%Z with 10%Z in H. destruct (Z.ltb_spec n 10); [|lia]. split; [reflexivity|]. constructor; [exists n; split; [reflexivity|lia]|constructor].
  - cbn [to_string]. rewrite !Nat2Z.inj_succ, !Z.pow_succ_r in H by lia. assert (P : (1 <= 10 ^ Z.of_nat k)%Z) by (pose proof (Z.pow_pos_nonneg 10 (Z.of_nat k)); lia). destruct (Z.ltb_spec n 10); [lia|].
    destruct (IH f (n / 10)%Z) as [L A]; [|lia|].
    + rewrite Nat2Z.inj_succ, Z.pow_succ_r by lia. split; [apply Z.div_le_lower_bound; lia|apply Z.div_lt_upper_bound; lia].
    + split; [rewrite app_length, L; cbn; lia|]. apply Forall_app. split; [exact A|]. constructor; [|constructor]. exists (n mod 10)%Z. split; [reflexivity|]. pose proof (Z.mod_pos_bound n 10). lia.
Qed.
(** The number that a text of digits shows. *)
Definition shown (l : list chr) : Z := fold_left (fun a x => match x with Dig d => 10 * a + d | _ => a end)%Z l 0%Z.
Lemma shown_to f : forall n, (0 <= n < 10 ^ Z.of_nat f)%Z -> shown (to_string f n) = n.
Proof.
  induction f as [|f IH]; intros n H; [change (10 ^ Z.of_nat 0)%Z with 1%Z in H; cbn; lia|]. cbn [to_string]. destruct (Z.ltb_spec n 10); [unfold shown; cbn [fold_left]; lia|].
  rewrite Nat2Z.inj_succ, Z.pow_succ_r in H by lia. unfold shown. rewrite fold_left_app. fold (shown (to_string f (n / 10))). rewrite IH by (split; [apply Z.div_pos; lia|apply Z.div_lt_upper_bound; lia]). cbn [fold_left]. pose proof (Z.div_mod n 10). lia.
Qed.
Lemma parts_eq vec : forall s, parts vec s = s ++ concat (map (fun x => to_string 10 x ++ [Dash]) vec).
Proof. induction vec as [|x vec IH]; intro s; cbn [parts map concat]; [now rewrite app_nil_r|]. now rewrite IH, <- !app_assoc. Qed.
(** A session consists of as many numbers as asked for, each of exactly six digits and followed by a dash, and the key; the numbers can be read off it. *)
Theorem C133_session : forall draw rd key size, in_range draw ->
  exists groups, gen_session draw rd key size = concat (map (fun g => g ++ [Dash]) groups) ++ key /\ length groups = size /\
    Forall (fun g => length g = 6 /\ Forall (fun x => exists d, x = Dig d /\ (0 <= d <= 9)%Z) g) groups /\
    forall i, i < size -> option_map shown (nth_error groups i) = Some (draw 100000 999999 rd i)%Z.
Proof.
  intros draw rd key size R. destruct (C133_vector draw real_random rd [] size 100000 999999 R ltac:(lia)) as (L & N & A). exists (map (to_string 10) (gen_vec draw real_random rd [] size 100000 999999)). unfold gen_session. rewrite parts_eq. cbn [app]. split; [now rewrite map_map|]. split; [now rewrite map_length|]. split.
  - apply Forall_forall. intros g G. apply in_map_iff in G. destruct G as (x & <- & X). rewrite Forall_forall in A. specialize (A x X). apply (digits 5 10 x); [|lia]. change (10 ^ Z.of_nat 5)%Z with 100000%Z. change (10 ^ Z.of_nat 6)%Z with 1000000%Z. lia.
  - intros i D. rewrite nth_error_map, (N i D). change (seed_of real_random rd) with rd. cbn [option_map]. f_equal. apply shown_to. pose proof (R 100000%Z 999999%Z rd i). change (10 ^ Z.of_nat 10)%Z with 10000000000%Z. lia.
Qed.
(** A case: a linear congruential engine. *)
Definition c133_draw (lo hi sd : Z) (i : nat) : Z := (lo + (sd * 48271 + Z.of_nat i * 16807 + 11) mod (hi - lo + 1))%Z.
Example C133_case_range : in_range c133_draw.
Proof. intros lo hi sd i L. unfold c133_draw. pose proof (Z.mod_pos_bound (sd * 48271 + Z.of_nat i * 16807 + 11) (hi - lo + 1)). lia. Qed.
Example C133_case_matrix : gen_mat c133_draw 3 99 [[7]]%Z 2 3 0 9 = [[4; 1; 8]; [5; 2; 9]]%Z /\ gen_vec c133_draw 3 5 [] 4 0 9 = [4; 1; 8; 5]%Z.
Proof. split; reflexivity. Qed.
Example C133_case_session : exists a, gen_session c133_draw 5 [Other 1; Other 2] 1 = map Dig a ++ [Dash; Other 1; Other 2] /\ length a = 6.
Proof. exists [3; 4; 1; 3; 6; 6]%Z. split; reflexivity. Qed.
Print Assumptions C133_vector.
Print Assumptions C133_matrix.
Print Assumptions C133_seed.
Print Assumptions C133_session.
