(** The node for nearest-neighbour search: src/DomainCtrl/Ann/DAnnNode.cpp 13-46, DAnnDefine.h 16-27, DAnnNode.h. *)
From Verif Require Export StatusModel ElemModel.
Local Open Scope Z_scope.
Local Open Scope list_scope.

(** The functions a user may override, DAnnNode.h 23-77. *)
Inductive afun := ATrain | ASearch | AInsert | AUpdate | ARemove | ALoad | ASave | AEdition.
(** The values of D_ANN_FUNC_TYPE, DAnnDefine.h 16-27. *)
Definition ANN_PREPARE_ERROR := 0. Definition ANN_TRAIN := 1. Definition ANN_SEARCH := 2. Definition ANN_INSERT := 3. Definition ANN_UPDATE := 4.
Definition ANN_REMOVE := 5. Definition ANN_LOAD_MODEL := 6. Definition ANN_SAVE_MODEL := 7. Definition ANN_EDITION := 8. Definition ANN_MAX_SIZE := 9.
(** ann_func_arr_, an array of ANN_MAX_SIZE member pointers, null at first (DAnnNode.h 98). A store outside the array is not
    possible here: it would be None. *)
Definition table := list (option afun).
Fixpoint store (t : table) (i : nat) (f : afun) : table :=
  match t, i with [], _ => [] | _ :: r, O => Some f :: r | x :: r, S j => x :: store r j f end.
Definition put (t : table) (i : Z) (f : afun) : table := store t (Z.to_nat i) f.
(** The constructor, DAnnNode.cpp 13-26. *)
Definition ann_table : table :=
  let t := repeat None (Z.to_nat ANN_MAX_SIZE) in
  let t := put t ANN_TRAIN ATrain in
  let t := put t ANN_SEARCH ASearch in
  let t := put t ANN_INSERT AInsert in
  let t := put t ANN_UPDATE AUpdate in
  let t := put t ANN_REMOVE ARemove in
  let t := put t ANN_LOAD_MODEL ALoad in
  let t := put t ANN_SAVE_MODEL ASave in
  put t ANN_EDITION AEdition.

(** What the user's functions do. [u_prepare]: prepareParam returns a value of the enumeration's type int, or throws. *)
Record user := mkU { u_prepare : out Z; u_fun : afun -> out status; u_refresh : out status }.
Inductive acall := CPrepare | CFun (f : afun) | CRefresh.
(** How run ends: a status, an exception, or undefined behaviour (null or missing member pointer). *)
Inductive aend := AStatus (s : status) | AThrow (m : string) | AUndef.
Definition throw_of {A} (o : out A) : aend := match o with Thrown m => AThrow m | _ => AUndef end.
(** DAnnNode::run, DAnnNode.cpp 29-46; with the calls made. *)
Definition ann_run (u : user) : list acall * aend :=
  match u_prepare u with
  | Val ty =>
      if (ty <=? ANN_PREPARE_ERROR) || (ANN_MAX_SIZE <=? ty) then ([CPrepare], AStatus (st_err "error ann function type"))
      else match nth_error ann_table (Z.to_nat ty) with
           | Some (Some f) =>
               match u_fun u f with
               | Val s =>
                   match check_status (st_assign st_default s) with
                   | ReturnStatus w => ([CPrepare; CFun f], AStatus w)
                   | ThrowExc m => ([CPrepare; CFun f], AThrow (what_of m))
                   | Continue =>
                       match u_refresh u with
                       | Val r => ([CPrepare; CFun f; CRefresh], AStatus (st_assign (st_assign st_default s) r))
                       | o => ([CPrepare; CFun f; CRefresh], throw_of o)
                       end
                   end
               | o => ([CPrepare; CFun f], throw_of o)
               end
           | _ => ([CPrepare], AUndef)
           end
  | o => ([CPrepare], throw_of o)
  end.
(** The functions that are not overridden: CGRAPH_NO_SUPPORT, DAnnNode.cpp 49-86; refreshParam does nothing, 89-91. *)
Definition no_support : status := st_err "function no support".
