(** Specification of binary reflection. *)
From Verif Require Export ReflModel.
From Coq Require Import NArith.
Local Open Scope nat_scope.
Local Open Scope list_scope.

(** Values of a type. *)
Fixpoint has_type (t : ty) (v : value) : Prop :=
  match t, v with
  | TFix n, VFix b => length b = n
  | TStr, VStr _ => True
  | TVec t', VVec l => Forall (has_type t') l
  | TUnit, VUnit => True
  | TField _ t' r, VField x y => has_type t' x /\ has_type r y
  | _, _ => False
  end.
(** At least one byte is written for a value. *)
Fixpoint solid (t : ty) : bool := match t with TUnit => false | TField _ t' r => solid t' || solid r | _ => true end.
(** No vector of structures without data. *)
Fixpoint supported_ty (t : ty) : bool :=
  match t with TVec t' => solid t' && supported_ty t' | TField _ t' r => supported_ty t' && supported_ty r | _ => true end.
(** The bytes of a value. *)
Fixpoint encode (t : ty) (id : N) (v : value) : list N :=
  match t, v with
  | TFix _, VFix b => id :: b
  | TStr, VStr b => id :: le 8 (N.of_nat (length b)) ++ b
  | TVec t', VVec l => let body := concat (map (encode t' id) l) in id :: le 8 (N.of_nat (length body)) ++ body
  | TField i t' r, VField x y => encode t' i x ++ encode r i y
  | _, _ => []
  end.
(** Reading [new] over [old]: vectors are appended to. *)
Fixpoint overlay (t : ty) (old new : value) : value :=
  match t, old, new with
  | TVec _, VVec a, VVec b => VVec (a ++ b)
  | TField _ t' r, VField x y, VField x' y' => VField (overlay t' x x') (overlay r y y')
  | _, _, _ => new
  end.
