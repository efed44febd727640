(** Containers: ULru (src/UtilsCtrl/Lru/ULru.h), USmallVector (src/UtilsCtrl/Container/USmallVector.h), USerialUniqueArray
    (src/UtilsCtrl/Container/USerialUniqueArray.h) and the parameter backtrace built on it (src/GraphCtrl/GraphParam/GParam.cpp,
    GParamManagerWrapper.h 42-50). *)
From Verif Require Export ListUtil.
From Coq Require Import Lia.
Local Open Scope nat_scope.
Local Open Scope list_scope.

(** * ULru. Keys are nats (only equality is used); the linked list is a list of nodes with an identity, the role of the
    iterators stored in cache_. [None]: undefined behaviour (back() or pop_back() of an empty list). *)
Section Lru.
Variable V : Type.
Record lnode := mkN { ln_id : nat; ln_key : nat; ln_val : V }.
Record lru := mkL { l_cap : nat; l_size : nat; l_nodes : list lnode; l_cache : nat -> option nat; l_next : nat }.
(** ULru.h 23-26: the capacity is a template argument. *)
Definition lru_new (cap : nat) : lru := mkL cap 0 [] (fun _ => None) 0.
(** std::list::erase(iterator) *)
Definition erase_node (i : nat) (l : list lnode) : list lnode := filter (fun n => negb (Nat.eqb (ln_id n) i)) l.
Definition map_set {A} (m : nat -> option A) (k : nat) (v : option A) : nat -> option A := fun x => if Nat.eqb x k then v else m x.
(** ULru::put, ULru.h 37-55 *)
Definition lru_put (k : nat) (v : V) (s : lru) : option lru :=
  let s1 :=
    match l_cache s k with
    | Some i => Some (mkL (l_cap s) (l_size s - 1) (erase_node i (l_nodes s)) (map_set (l_cache s) k None) (l_next s))
    | None =>
        if l_cap s <=? l_size s then
          match rev (l_nodes s) with
          | [] => None
          | b :: r => Some (mkL (l_cap s) (l_size s - 1) (rev r) (map_set (l_cache s) (ln_key b) None) (l_next s))
          end
        else Some s
    end in
  match s1 with
  | Some s1 => Some (mkL (l_cap s1) (S (l_size s1)) (mkN (l_next s1) k v :: l_nodes s1) (map_set (l_cache s1) k (Some (l_next s1))) (S (l_next s1)))
  | None => None
  end.
(** ULru::get, ULru.h 63-73; a cached iterator that is not in the list is undefined behaviour. *)
Definition lru_get (k : nat) (s : lru) : option (lru * option V) :=
  match l_cache s k with
  | Some i =>
      match find (fun n => Nat.eqb (ln_id n) i) (l_nodes s) with
      | Some n => match lru_put k (ln_val n) s with Some s' => Some (s', Some (ln_val n)) | None => None end
      | None => None
      end
  | None => Some (s, None)
  end.
(** ULru::clear, ULru.h 86-90 *)
Definition lru_clear (s : lru) : lru := mkL (l_cap s) 0 [] (fun _ => None) (l_next s).
Inductive lop := LPut (k : nat) (v : V) | LGet (k : nat) | LClear.
Definition lru_step (s : lru) (o : lop) : option (lru * option V) :=
  match o with
  | LPut k v => match lru_put k v s with Some s' => Some (s', None) | None => None end
  | LGet k => lru_get k s
  | LClear => Some (lru_clear s, None)
  end.
(** A history and the answers of its get calls. *)
Fixpoint lru_run (s : lru) (h : list lop) : option (lru * list (option V)) :=
  match h with
  | [] => Some (s, [])
  | o :: r =>
      match lru_step s o with
      | Some (s1, a) => match lru_run s1 r with Some (s2, l) => Some (s2, a :: l) | None => None end
      | None => None
      end
  end.
End Lru.
Arguments mkN {V}. Arguments ln_id {V}. Arguments ln_key {V}. Arguments ln_val {V}.
Arguments mkL {V}. Arguments l_cap {V}. Arguments l_size {V}. Arguments l_nodes {V}. Arguments l_cache {V}. Arguments l_next {V}.
Arguments LPut {V}. Arguments LGet {V}. Arguments LClear {V}. Arguments lru_new {V}. Arguments lru_run {V}. Arguments lru_step {V}.
Arguments lru_put {V}. Arguments lru_get {V}. Arguments lru_clear {V}. Arguments erase_node {V}.

(** * USmallVector<T, CAPACITY>. T is taken to be trivially copyable (clear uses memset). The allocation is a list of cells;
    [None] as a result is undefined behaviour: an access outside the allocation, or the use of a reference into it after
    it was freed. A cell without a value is uninitialised or zeroed. *)
Record svec := mkSV { sv_data : list (option nat); sv_cur : nat }.
(** USmallVector.h 23-26 *)
Definition sv_new : svec := mkSV [] 0.
(** [data_[i]] as an rvalue *)
Definition sv_read (i : nat) (d : list (option nat)) : option nat := match nth_error d i with Some (Some x) => Some x | _ => None end.
(** [data_[i] = x] *)
Fixpoint sv_write (i : nat) (x : nat) (d : list (option nat)) : option (list (option nat)) :=
  match d, i with
  | [], _ => None
  | _ :: r, O => Some (Some x :: r)
  | c :: r, S j => match sv_write j x r with Some r' => Some (c :: r') | None => None end
  end.
(** The argument: a value outside the vector, or a reference to element [i] of the vector itself. *)
Inductive sarg := AVal (x : nat) | ARef (i : nat).
Definition arg_val (a : sarg) (s : svec) : option nat := match a with AVal x => Some x | ARef i => sv_read i (sv_data s) end.
(** hasValue, USmallVector.h 92-103 *)
Fixpoint has_loop (x : nat) (i n : nat) (d : list (option nat)) : option bool :=
  match n with
  | O => Some false
  | S m => match sv_read i d with Some y => if Nat.eqb x y then Some true else has_loop x (S i) m d | None => None end
  end.
Definition sv_has (x : nat) (s : svec) : option bool := has_loop x 0 (sv_cur s) (sv_data s).
(** insert, USmallVector.h 38-55 *)
Definition sv_insert (CAP : nat) (a : sarg) (unique : bool) (s : svec) : option svec :=
  match arg_val a s with
  | None => None
  | Some x =>
      match (if unique then sv_has x s else Some false) with
      | None => None
      | Some true => Some s
      | Some false =>
          if List.length (sv_data s) <=? sv_cur s then
            (* the old array is moved and freed; a reference into it dangles *)
            match a with
            | ARef _ => None
            | AVal _ => let d := sv_data s ++ repeat None CAP in
                        match sv_write (sv_cur s) x d with Some d' => Some (mkSV d' (S (sv_cur s))) | None => None end
            end
          else match sv_write (sv_cur s) x (sv_data s) with Some d' => Some (mkSV d' (S (sv_cur s))) | None => None end
      end
  end.
(** clear, USmallVector.h 65-69; on a vector that never allocated this is memset(nullptr, 0, 0), taken as doing nothing. *)
Definition sv_clear (s : svec) : svec := mkSV (map (fun _ => None) (sv_data s)) 0.
(** remove, USmallVector.h 71-84: the first equal element; the following ones are shifted down. *)
Fixpoint shift_loop (j n : nat) (d : list (option nat)) : option (list (option nat)) :=
  match n with
  | O => Some d
  | S m => match sv_read (S j) d with Some x => match sv_write j x d with Some d' => shift_loop (S j) m d' | None => None end | None => None end
  end.
Fixpoint remove_loop (x : nat) (i n : nat) (cur : nat) (d : list (option nat)) : option (list (option nat) * bool) :=
  match n with
  | O => Some (d, false)
  | S m =>
      match sv_read i d with
      | None => None
      | Some y => if Nat.eqb y x then match shift_loop i (cur - 1 - i) d with Some d' => Some (d', true) | None => None end
                  else remove_loop x (S i) m cur d
      end
  end.
Definition sv_remove (x : nat) (s : svec) : option (svec * bool) :=
  match remove_loop x 0 (sv_cur s) (sv_cur s) (sv_data s) with
  | Some (d, b) => Some (mkSV d (if b then sv_cur s - 1 else sv_cur s), b)
  | None => None
  end.
(** asVector / begin..end, USmallVector.h 109-138 *)
Fixpoint read_all (i n : nat) (d : list (option nat)) : option (list nat) :=
  match n with
  | O => Some []
  | S m => match sv_read i d, read_all (S i) m d with Some x, Some l => Some (x :: l) | _, _ => None end
  end.
Definition sv_list (s : svec) : option (list nat) := read_all 0 (sv_cur s) (sv_data s).
Definition sv_size (s : svec) : nat := sv_cur s.
Definition sv_front (s : svec) : option nat := sv_read 0 (sv_data s).
(** back(): data_[cur_index_ - 1]; with cur_index_ = 0 the index wraps around. *)
Definition sv_back (s : svec) : option nat := match sv_cur s with O => None | S n => sv_read n (sv_data s) end.
Inductive svop := SInsert (a : sarg) (unique : bool) | SRemove (x : nat) | SClear.
Definition sv_step (CAP : nat) (s : svec) (o : svop) : option svec :=
  match o with
  | SInsert a u => sv_insert CAP a u s
  | SRemove x => match sv_remove x s with Some (s', _) => Some s' | None => None end
  | SClear => Some (sv_clear s)
  end.
Fixpoint sv_run (CAP : nat) (s : svec) (h : list svop) : option svec :=
  match h with [] => Some s | o :: r => match sv_step CAP s o with Some s' => sv_run CAP s' r | None => None end end.

(** * USerialUniqueArray and the backtrace of a parameter *)
Record uarr := mkUA { ua_set : list nat; ua_arr : list nat }.
(** uniqueAdd, USerialUniqueArray.h 27-33 *)
Definition ua_add (x : nat) (u : uarr) : uarr := if memb x (ua_set u) then u else mkUA (x :: ua_set u) (ua_arr u ++ [x]).
Definition ua_clear (u : uarr) : uarr := mkUA [] [].
(** getUniqueArray, USerialUniqueArray.h 40-44: appends to the (here empty) argument. *)
Definition ua_get (u : uarr) : list nat := ua_arr u.
(** A parameter with its backtrace; users are names (sessions for unnamed elements). *)
Record bparam := mkBP { bp_on : bool; bp_arr : uarr }.
Inductive btop := BUse (who : nat) | BClean.
(** getGParam (GParamManagerWrapper.h 42-50) calls addBacktrace, GParam.cpp 26-37; cleanBacktrace, GParam.cpp 40-48. *)
Definition bt_step (p : bparam) (o : btop) : bparam :=
  match o with
  | BUse w => if bp_on p then mkBP true (ua_add w (bp_arr p)) else p
  | BClean => if bp_on p then mkBP true (ua_clear (bp_arr p)) else p
  end.
(** getBacktrace, GParam.cpp 13-23: throws ([None]) when not enabled. *)
Definition bt_get (p : bparam) : option (list nat) := if bp_on p then Some (ua_get (bp_arr p)) else None.
Definition bt_run (p : bparam) (h : list btop) : bparam := fold_left bt_step h p.
