(** Model of CStatus (src/CBasic/CStatus.h). Definitions only. *)
From Coq Require Export String ZArith Bool List.
Export ListNotations.
Local Open Scope Z_scope.

(** CStatus.h 169-172: the two private fields.  [int] is modelled by [Z] (no operation of the class does
    arithmetic on the code, so no wrap-around can occur). *)
Record status := mkStatus { code : Z; info : string }.

(** CStatus.h 26-28 *)
Definition STATUS_OK : Z := 0.
Definition STATUS_ERR : Z := -1.
Definition STATUS_CRASH : Z := -996.

(** CStatus.h 32: default constructor (170-171 give the initial values). *)
Definition st_default : status := mkStatus STATUS_OK EmptyString.
(** CStatus.h 34-37 *)
Definition st_err (i : string) : status := mkStatus STATUS_ERR i.
(** CStatus.h 39-42 *)
Definition st_make (c : Z) (i : string) : status := mkStatus c i.

(** CStatus.h 118-144 *)
Definition isOK (s : status) : bool := code s =? STATUS_OK.
Definition isErr (s : status) : bool := code s <? STATUS_OK.
Definition isNotErr (s : status) : bool := code s >=? STATUS_OK.
Definition isCrash (s : status) : bool := code s =? STATUS_CRASH.

(** CStatus.h 44-51 and 53-60: copy and move construction. The new object starts from the member
    initialisers (code 0, empty info) and returns early when the source has that same code. *)
Definition st_copy (src : status) : status :=
  if code src =? code st_default then st_default else mkStatus (code src) (info src).

(** CStatus.h 62-69: assignment. *)
Definition st_assign (this src : status) : status :=
  if negb (code this =? code src) then mkStatus (code src) (info src) else this.

(** CStatus.h 71-82: operator+=. *)
Definition st_plus (this cur : status) : status :=
  if negb (isErr this) && isErr cur then mkStatus (code cur) (info cur) else this.

(** CStatus.h 91-96 *)
Definition st_reset (this : status) : status :=
  if negb (code this =? STATUS_OK) then mkStatus STATUS_OK EmptyString else this.

(** CStatus.h 152-156 *)
Definition st_setInfo (c : Z) (i : string) : status :=
  mkStatus c (if STATUS_OK =? c then EmptyString else i).
(** CStatus.h 163-167 *)
Definition st_setErrorInfo (i : string) : status := mkStatus STATUS_ERR i.

(** The code base folds statuses with a sequence of [status += s]. *)
Definition st_sum (init : status) (l : list status) : status := fold_left st_plus l init.

(** UtilsDefine.h 123-129: CGRAPH_FUNCTION_CHECK_STATUS. What the enclosing function does at this point. *)
Inductive check_outcome := Continue | ReturnStatus (s : status) | ThrowExc (what : string).
Definition check_status (s : status) : check_outcome :=
  if isErr s then (if isCrash s then ThrowExc (info s) else ReturnStatus s) else Continue.
