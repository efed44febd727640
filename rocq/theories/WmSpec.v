(** A small machine for C++ atomics that are weaker than sequentially consistent: release/acquire and relaxed accesses with views. An atomic object keeps every value ever stored, in modification
    order; a load may return any of them that is not older than what its thread already knows of. What a thread knows (its view) travels with release stores to acquire loads of them. An object that is not
    atomic may be accessed only by a thread that knows of every earlier access of it; otherwise there is a data race, which is undefined. Every access of such an object counts as a write here (the code modelled with
    this machine only moves into and out of them). Simplified: a store goes to the end of the modification order (in the code modelled with it no two threads store to one object without
    an order between the stores), and no value is read before it is stored. *)
From Verif Require Import ListUtil.
From Coq Require Export Lia.
Local Open Scope nat_scope.
Local Open Scope list_scope.

(** How many of the stores to each atomic object, and how many of the accesses to each other object, are known. *)
Record view := mkV { va : nat -> nat; vn : nat -> nat }.
Definition v_none : view := mkV (fun _ => 0) (fun _ => 0).
Definition v_join (a b : view) : view := mkV (fun x => Nat.max (va a x) (va b x)) (fun l => Nat.max (vn a l) (vn b l)).
Definition v_see (x t : nat) (a : view) : view := mkV (upd (va a) x (Nat.max t (va a x))) (vn a).

Inductive order := Relaxed | Acquire | Release | AcqRel.
Definition acq (o : order) : bool := match o with Acquire | AcqRel => true | _ => false end.
Definition rel (o : order) : bool := match o with Release | AcqRel => true | _ => false end.

Record wmem := mkM {
  m_at : nat -> list (nat * view);   (* the values stored to an atomic object, oldest first, each with the view stored with it *)
  m_na : nat -> nat * nat;           (* another object: its value, the number of accesses so far *)
  m_vw : nat -> view                 (* what each thread knows *)
}.
(** Every object holds 0, and every thread knows that. *)
Definition m_new : wmem := mkM (fun _ => [(0, v_none)]) (fun _ => (0, 0)) (fun _ => v_none).
Definition set_vw (u : nat) (v : view) (m : wmem) : wmem := mkM (m_at m) (m_na m) (upd (m_vw m) u v).

(** Thread [u] loads the [t]-th value of [x]; [None]: it cannot, that one is older than what it knows, or not stored yet. *)
Definition w_load (o : order) (u x t : nat) (m : wmem) : option (nat * wmem) :=
  if Nat.ltb t (va (m_vw m u) x) then None
  else match nth_error (m_at m x) t with
       | None => None
       | Some (v, w) => Some (v, set_vw u (v_see x t (if acq o then v_join (m_vw m u) w else m_vw m u)) m)
       end.
Definition w_store (o : order) (u x v : nat) (m : wmem) : wmem :=
  let t := length (m_at m x) in
  let w := v_see x t (m_vw m u) in
  mkM (upd (m_at m) x (m_at m x ++ [(v, if rel o then w else v_see x t v_none)])) (m_na m) (upd (m_vw m) u w).
(** A read-modify-write reads the last value; the view that came with it goes on. *)
Definition w_rmw (o : order) (u x v : nat) (m : wmem) : nat * wmem :=
  let t := length (m_at m x) in
  let '(v0, w0) := last (m_at m x) (0, v_none) in
  let w := v_see x t (if acq o then v_join (m_vw m u) w0 else m_vw m u) in
  (v0, mkM (upd (m_at m) x (m_at m x ++ [(v, v_join w0 (if rel o then w else v_see x t v_none))])) (m_na m) (upd (m_vw m) u w)).
(** [None]: a data race. *)
Definition w_access (u l : nat) (f : nat -> nat) (m : wmem) : option (nat * wmem) :=
  let '(v, k) := m_na m l in
  if Nat.eqb (vn (m_vw m u) l) k
  then Some (v, mkM (m_at m) (upd (m_na m) l (f v, S k)) (upd (m_vw m) u (mkV (va (m_vw m u)) (upd (vn (m_vw m u)) l (S k)))))
  else None.
(** Thread [u] tells thread [v] all it knows, by some other means (a mutex, a join). *)
Definition w_tell (u v : nat) (m : wmem) : wmem := set_vw v (v_join (m_vw m v) (m_vw m u)) m.
