(** Random data and sessions: src/UtilsCtrl/Random/URandom.h 33-46, 57-76, 84-94.
    Simplified: numbers are integers, of floating-point numbers only the integral part is kept; the engine and the
    distribution are a function [draw lo hi seed i], the [i]-th number of an engine seeded with [seed] between [lo] and [hi]. *)
From Coq Require Export List Arith Bool ZArith Lia.
Export ListNotations.
Local Open Scope list_scope.

(** URandomDefine.h 26: seed 0 stands for a seed of the random device. *)
Definition real_random : Z := 0%Z.
(** 36, 60: the seed of the engine; [rd] is what the random device says. *)
Definition seed_of (seed rd : Z) : Z := if Z.eqb real_random seed then rd else seed.

Section R.
Variable draw : Z -> Z -> Z -> nat -> Z.
(** 41-43 and 69-71: [n] numbers are appended to [data]; the engine has given [i] numbers so far. *)
Fixpoint fill (lo hi sd : Z) (n : nat) (i : nat) (data : list Z) : list Z * nat :=
  match n with O => (data, i) | S n => fill lo hi sd n (S i) (data ++ [draw lo hi sd i]) end.
(** 33-46: a vector; [data] is what it holds before. *)
Definition gen_vec (seed rd : Z) (data : list Z) (dim : nat) (lo hi : Z) : list Z :=
  let data := [] (* 39: clear *) in fst (fill lo hi (seed_of seed rd) dim 0 data).
(** 67-73: rows; [arr] is the row under construction, which is empty again once it was moved from (72). *)
Fixpoint rows (lo hi sd : Z) (h c i : nat) (arr : list Z) (data : list (list Z)) : list (list Z) :=
  match h with O => data | S h => let '(arr, i) := fill lo hi sd c i arr in rows lo hi sd h c i [] (data ++ [arr]) end.
(** 57-76: a matrix. *)
Definition gen_mat (seed rd : Z) (data : list (list Z)) (h c : nat) (lo hi : Z) : list (list Z) :=
  let data := [] (* 63: clear *) in rows lo hi (seed_of seed rd) h c 0 [] data.
End R.

(** Characters: a digit, a dash, any other. *)
Inductive chr := Dig (d : Z) | Dash | Other (n : nat).
(** 89: std::to_string of an int that is not negative; an int has at most ten digits, [f] bounds them. *)
Fixpoint to_string (f : nat) (n : Z) : list chr :=
  match f with
  | O => []
  | S f => if (n <? 10)%Z then [Dig n] else to_string f (n / 10)%Z ++ [Dig (n mod 10)%Z]
  end.
(** 88-91 *)
Fixpoint parts (vec : list Z) (session : list chr) : list chr :=
  match vec with [] => session | x :: vec => parts vec (session ++ to_string 10 x ++ [Dash]) end.
(** 84-94 with the default seed of URandom, which is 0 (20). *)
Definition gen_session (draw : Z -> Z -> Z -> nat -> Z) (rd : Z) (key : list chr) (size : nat) : list chr :=
  parts (gen_vec draw real_random rd [] size 100000 999999) [] ++ key.
