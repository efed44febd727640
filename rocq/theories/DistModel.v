(** Distances: src/UtilsCtrl/Distance/UDistance.inl 18-51, UDistanceCalculator.h 20-112, Common/UEuclideanDistance.h 18-45,
    Common/UCosineDistance.h 17-36. One number type for TSrc and TRes; the operations on it are a parameter. The unused
    argument [ext] is left out. *)
From Verif Require Export ListUtil StatusModel.
From Coq Require Export NArith.
Local Open Scope nat_scope.
Local Open Scope list_scope.

(** The operations the code uses. [n_scale]: the denominator 1 / sqrt(val) converted to TSrc, UDistance.inl 43; None: the
    conversion is undefined. [n_pow2 a]: std::pow(a, 2). *)
Record num := mkNum { n_t :> Type; n_zero : n_t; n_add : n_t -> n_t -> n_t; n_sub : n_t -> n_t -> n_t; n_mul : n_t -> n_t -> n_t; n_pow2 : n_t -> n_t;
  n_sqrt : n_t -> n_t; n_div : n_t -> n_t -> n_t; n_scale : n_t -> option n_t }.

Section Dist.
Variable K : num.
(** A pointer to numbers: null, or an array. *)
Definition ptr := option (list K).
Definition rd (p : ptr) (i : nat) : option K := match p with None => None | Some l => nth_error l i end.
(** std::vector::data: null for an empty vector (as in libstdc++). *)
Definition data (l : list K) : ptr := match l with [] => None | _ => Some l end.
(** Result of a calculation: undefined behaviour, or the value of [result] and the status. [DThrow]: the macro
    CGRAPH_FUNCTION_CHECK_STATUS throws on a crash status. *)
Inductive dout := DUndef | DThrow | DDone (r : K) (s : status).

(** UEuclideanDistance::calc, UEuclideanDistance.h 21-30: dim1 rounds, reading both vectors. [root]: needSqrt. *)
Fixpoint euc_loop (v1 v2 : ptr) (n i : nat) (acc : K) : option K :=
  match n with
  | O => Some acc
  | S m => match rd v1 i, rd v2 i with Some a, Some b => euc_loop v1 v2 m (S i) (n_add K acc (n_pow2 K (n_sub K a b))) | _, _ => None end
  end.
Definition euc_calc (root : bool) (v1 v2 : ptr) (d1 d2 : N) (r : K) : dout :=
  match euc_loop v1 v2 (N.to_nat d1) 0 (n_zero K) with
  | None => DUndef
  | Some x => DDone (if root then n_sqrt K x else x) st_default
  end.
(** UCosineDistance::calc, UCosineDistance.h 19-33. *)
Fixpoint cos_loop (v1 v2 : ptr) (n i : nat) (acc l1 l2 : K) : option (K * K * K) :=
  match n with
  | O => Some (acc, l1, l2)
  | S m => match rd v1 i, rd v2 i with
           | Some a, Some b => cos_loop v1 v2 m (S i) (n_add K acc (n_mul K a b)) (n_add K l1 (n_mul K a a)) (n_add K l2 (n_mul K b b))
           | _, _ => None
           end
  end.
Definition cos_calc (v1 v2 : ptr) (d1 d2 : N) (r : K) : dout :=
  match cos_loop v1 v2 (N.to_nat d1) 0 (n_zero K) (n_zero K) (n_zero K) with
  | None => DUndef
  | Some (x, l1, l2) => DDone (n_div K x (n_mul K (n_sqrt K l1) (n_sqrt K l2))) st_default
  end.
(** CSize is 64 bits wide: products wrap. *)
Definition size_mul (a b : N) : N := ((a * b) mod 2 ^ 64)%N.
(** UDistance::check, UDistance.inl 18-28 (used by the cosine distance). *)
Definition base_check (v1 v2 : ptr) (d1 d2 : N) : status :=
  match v1, v2 with
  | Some _, Some _ => if (size_mul d1 d2 =? 0)%N then st_err "input dim error" else st_default
  | _, _ => st_err "input is null"
  end.
(** UEuclideanDistance::check, UEuclideanDistance.h 33-44. *)
Definition euc_check (v1 v2 : ptr) (d1 d2 : N) : status :=
  match v1, v2 with
  | Some _, Some _ => if negb (d1 =? d2)%N || (size_mul d1 d2 =? 0)%N then st_err "euclidean distance dim error" else st_default
  | _, _ => st_err "input is null"
  end.
(** A distance: its check and its calc. calc gets the old value of [result] and may leave it. *)
Record dist := mkDist { ds_check : ptr -> ptr -> N -> N -> status; ds_calc : ptr -> ptr -> N -> N -> K -> dout }.
Definition euclid (root : bool) : dist := mkDist euc_check (euc_calc root).
Definition cosine : dist := mkDist base_check cos_calc.

Section Calculator.
Variable D : dist.
Variable need : bool.
(** calculate with pointers, UDistanceCalculator.h 36-46; [r]: the value of [result] before. *)
Definition calculate (v1 v2 : ptr) (d1 d2 : N) (r : K) : dout :=
  let st := st_assign st_default (if need then ds_check D v1 v2 d1 d2 else st_default) in
  match check_status st with
  | ReturnStatus w => DDone r w
  | ThrowExc _ => DThrow
  | Continue => match ds_calc D v1 v2 d1 d2 r with DDone x s => DDone x (st_assign st s) | o => o end
  end.
(** calculate with vectors, UDistanceCalculator.h 56-61. *)
Definition calc_vec (v1 v2 : list K) (r : K) : dout := calculate (data v1) (data v2) (N.of_nat (length v1)) (N.of_nat (length v2)) r.
(** The batch calculate, UDistanceCalculator.h 71-84. *)
Inductive bout := BUndef | BThrow | BDone (rs : list K) (s : status).
Fixpoint batch_loop (q : list K) (nodes : list (list K)) (rs : list K) (st : status) : bout :=
  match nodes with
  | [] => BDone rs st
  | v :: r => match calc_vec q v (n_zero K) with
              | DUndef => BUndef
              | DThrow => BThrow
              | DDone x s => batch_loop q r (rs ++ [x]) (st_plus st s)
              end
  end.
Definition batch (q : list K) (nodes : list (list K)) : bout := batch_loop q nodes [] st_default.
End Calculator.

(** UDistance::normalize, UDistance.inl 32-49: the squares are added up, then every entry is multiplied in place. *)
Definition sum_sq (l : list K) : K := fold_left (fun acc x => n_add K acc (n_mul K x x)) l (n_zero K).
Definition normalize (l : list K) : option (list K) := match n_scale K (sum_sq l) with None => None | Some d => Some (map (fun x => n_mul K x d) l) end.
(** UDistanceCalculator::normalize with a vector, UDistanceCalculator.h 93-112: the check gets the vector twice. *)
Inductive nout := NUndef | NThrow | NDone (l : list K) (s : status).
Definition normalize_vec (D : dist) (need : bool) (l : list K) : nout :=
  let n := N.of_nat (length l) in
  let st := st_assign st_default (if need then ds_check D (data l) (data l) n n else st_default) in
  match check_status st with
  | ReturnStatus w => NDone l w
  | ThrowExc _ => NThrow
  | Continue => match normalize l with None => NUndef | Some l' => NDone l' (st_assign st st_default) end
  end.
End Dist.
Arguments DUndef {K}. Arguments DThrow {K}. Arguments DDone {K}. Arguments BUndef {K}. Arguments BThrow {K}. Arguments BDone {K}.
Arguments NUndef {K}. Arguments NThrow {K}. Arguments NDone {K}.

(** TSrc = int with exact integers (overflow left out). sqrt of [val] is a double; 1 / sqrt(val) converted to int is 1 for 1,
    0 for larger values, and undefined for 0 (infinity). Only normalize uses this instance. *)
Definition intnum : num := mkNum Z 0%Z Z.add Z.sub Z.mul (fun a => (a * a)%Z) Z.sqrt Z.div
  (fun v => if (v =? 0)%Z then None else if (v =? 1)%Z then Some 1%Z else Some 0%Z).
