(** Binary reflection, src/UtilsCtrl/Reflection/UReflectionType.h, UReflectionSession.h, UReflection.h.
    Bytes are numbers; a buffer is a list of bytes; every access outside the buffer is undefined ([None]). size_t has eight bytes,
    least significant first. *)
From Verif Require Export ListUtil.
From Coq Require Import NArith Lia.
Local Open Scope nat_scope.
Local Open Scope list_scope.

(** Types the code accepts: fundamental types and enums of [n] bytes (UReflFundamental, UReflEnum), std::string, std::vector, and
    classes as lists of fields, [TField id t rest], [TUnit] being the end of the list. *)
Inductive ty := TFix (n : nat) | TStr | TVec (t : ty) | TUnit | TField (id : N) (t rest : ty).
(** Values; a fundamental value is its object representation. *)
Inductive value := VFix (b : list N) | VStr (b : list N) | VVec (l : list value) | VUnit | VField (v rest : value).

(** size_t in memory *)
Fixpoint le (k : nat) (n : N) : list N := match k with O => [] | S j => (n mod 256)%N :: le j (n / 256)%N end.
Fixpoint de (b : list N) : N := match b with [] => 0%N | x :: r => (x + 256 * de r)%N end.

(** A value-initialised object, T{}. Default member initialisers are taken to be empty or zero, as those of the storage
    structures that hold vectors (GStorageDefine.h) are. *)
Fixpoint fresh (t : ty) : value :=
  match t with
  | TFix n => VFix (repeat 0%N n)
  | TStr => VStr []
  | TVec _ => VVec []
  | TUnit => VUnit
  | TField _ t' r => VField (fresh t') (fresh r)
  end.

(** reflGetSize, UReflectionType.h 54-56, 72-74, 99-101, 117-138; the length added to the session *)
Fixpoint refl_size (t : ty) (v : value) : nat :=
  match t, v with
  | TFix n, _ => 1 + n
  | TStr, VStr b => 1 + 8 + length b
  | TVec t', VVec l => 1 + 8 + fold_left (fun acc x => acc + refl_size t' x) l 0
  | TField _ t' r, VField x y => refl_size t' x + refl_size r y
  | _, _ => 0
  end.

(** memcpy(data_ + offset_, ...), UReflectionSession.h 31-34, 41-46, 56-58 *)
Definition put (b : list N) (off : nat) (mem : list N) : option (list N) :=
  if off + length b <=? length mem then Some (firstn off mem ++ b ++ skipn (off + length b) mem) else None.
(** memcpy(..., data_ + offset_, len) and std::string::assign, UReflectionSession.h 24-29, 36-39 *)
Definition get (n off : nat) (mem : list N) : option (list N) :=
  if off + n <=? length mem then Some (firstn n (skipn off mem)) else None.

Fixpoint write_all (f : value -> list N -> nat -> option (list N * nat)) (l : list value) (mem : list N) (off : nat) : option (list N * nat) :=
  match l with
  | [] => Some (mem, off)
  | x :: r => match f x mem off with Some (m, o) => write_all f r m o | None => None end
  end.
(** reflWrite, UReflectionType.h 64-67, 85-90, 109-112, 141-171: the buffer and the offset afterwards. A vector's byte length is
    filled in after its elements. *)
Fixpoint refl_write (t : ty) (id : N) (v : value) (mem : list N) (off : nat) : option (list N * nat) :=
  match t, v with
  | TFix n, VFix b =>
      match put [id] off mem with
      | Some m => match put b (off + 1) m with Some m' => Some (m', off + 1 + length b) | None => None end
      | None => None
      end
  | TStr, VStr b =>
      match put [id] off mem with
      | Some m =>
          match put (le 8 (N.of_nat (length b))) (off + 1) m with
          | Some m' => match put b (off + 1 + 8) m' with Some m'' => Some (m'', off + 1 + 8 + length b) | None => None end
          | None => None
          end
      | None => None
      end
  | TVec t', VVec l =>
      match put [id] off mem with
      | Some m =>
          match put (le 8 0) (off + 1) m with
          | Some m' =>
              match write_all (refl_write t' id) l m' (off + 1 + 8) with
              | Some (m'', o) => match put (le 8 (N.of_nat (o - (off + 1) - 8))) (off + 1) m'' with Some m3 => Some (m3, o) | None => None end
              | None => None
              end
          | None => None
          end
      | None => None
      end
  | TUnit, VUnit => Some (mem, off)
  | TField i t' r, VField x y =>
      match refl_write t' i x mem off with Some (m, o) => refl_write r i y m o | None => None end
  | _, _ => None
  end.

(** The loop of a vector read, UReflectionType.h 188-194; [fuel] never runs out for elements that take at least one byte, otherwise the loop may be
    endless: [None]. *)
Fixpoint read_all (fuel : nat) (f : nat -> option (value * nat)) (stop off : nat) (acc : list value) : option (list value) :=
  match fuel with
  | O => None
  | S k => if stop <=? off then Some acc
           else match f off with Some (x, o) => read_all k f stop o (acc ++ [x]) | None => None end
  end.
(** reflRead into an object that holds [old], UReflectionType.h 58-62, 76-83, 103-107, 174-203: the object and the offset afterwards. Ids are read
    and ignored. A vector keeps its old elements. *)
Fixpoint refl_read (t : ty) (mem : list N) (off : nat) (old : value) : option (value * nat) :=
  match t with
  | TFix n =>
      match get 1 off mem with
      | Some _ => match get n (off + 1) mem with Some b => Some (VFix b, off + 1 + n) | None => None end
      | None => None
      end
  | TStr =>
      match get 1 off mem with
      | Some _ =>
          match get 8 (off + 1) mem with
          | Some lb => let len := N.to_nat (de lb) in
                       match get len (off + 1 + 8) mem with Some b => Some (VStr b, off + 1 + 8 + len) | None => None end
          | None => None
          end
      | None => None
      end
  | TVec t' =>
      match get 1 off mem with
      | Some _ =>
          match get 8 (off + 1) mem with
          | Some lb =>
              let stop := off + 1 + 8 + N.to_nat (de lb) in
              match read_all (S (S (length mem))) (fun o => refl_read t' mem o (fresh t')) stop (off + 1 + 8)
                             (match old with VVec l => l | _ => [] end) with
              | Some l => Some (VVec l, stop)
              | None => None
              end
          | None => None
          end
      | None => None
      end
  | TUnit => Some (VUnit, off)
  | TField _ t' r =>
      match refl_read t' mem off (match old with VField x _ => x | _ => fresh t' end) with
      | Some (x, o) => match refl_read r mem o (match old with VField _ y => y | _ => fresh r end) with
                       | Some (y, o') => Some (VField x y, o')
                       | None => None
                       end
      | None => None
      end
  end.

(** UReflection::getSize, write, read, UReflection.h 28-43 *)
Definition u_size (t : ty) (v : value) : nat := refl_size t v.
Definition u_write (t : ty) (v : value) (mem : list N) : option (list N) :=
  match refl_write t 0 v mem 0 with Some (m, _) => Some m | None => None end.
Definition u_read (t : ty) (mem : list N) (old : value) : option value :=
  match refl_read t mem 0 old with Some (v, _) => Some v | None => None end.
