(** Specifications of the containers, over histories given newest operation first. *)
From Verif Require Export ContModel.
Local Open Scope nat_scope.
Local Open Scope list_scope.

Definition drop_key (k : nat) (l : list nat) : list nat := filter (fun x => negb (Nat.eqb x k)) l.
(** The distinct keys used since the last clear, most recently used first. A put uses its key; a get uses its key when it
    hits, that is when the key is among the [c] most recently used ones. *)
Fixpoint used {V} (c : nat) (h : list (lop V)) : list nat :=
  match h with
  | [] => []
  | LPut k _ :: r => k :: drop_key k (used c r)
  | LGet k :: r => if memb k (firstn c (used c r)) then k :: drop_key k (used c r) else used c r
  | LClear :: _ => []
  end.
(** The value of the last put of [k] since the last clear. *)
Fixpoint last_put {V} (h : list (lop V)) (k : nat) : option V :=
  match h with
  | [] => None
  | LPut k' v :: r => if Nat.eqb k k' then Some v else last_put r k
  | LGet _ :: r => last_put r k
  | LClear :: _ => None
  end.

(** The list a small vector stands for; arguments by value. *)
Fixpoint remove_one (x : nat) (l : list nat) : list nat :=
  match l with [] => [] | y :: r => if Nat.eqb y x then r else y :: remove_one x r end.
Inductive vop := VInsert (x : nat) (unique : bool) | VRemove (x : nat) | VClear.
Fixpoint vlist (h : list vop) : list nat :=
  match h with
  | [] => []
  | VInsert x u :: r => if u && memb x (vlist r) then vlist r else vlist r ++ [x]
  | VRemove x :: r => remove_one x (vlist r)
  | VClear :: _ => []
  end.
Definition by_value (o : vop) : svop :=
  match o with VInsert x u => SInsert (AVal x) u | VRemove x => SRemove x | VClear => SClear end.

(** The uses of a parameter since its trace was last cleaned, oldest first. *)
Fixpoint uses (h : list btop) : list nat :=
  match h with [] => [] | BUse w :: r => uses r ++ [w] | BClean :: _ => [] end.
(** [x] is used at some point before the first use of [y]. *)
Definition used_first (l : list nat) (x y : nat) : Prop := exists a b, l = a ++ x :: b /\ ~ In y a /\ x <> y /\ In y b.
