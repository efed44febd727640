(** Specification vocabulary for cancel, suspend and resume. *)
From Verif Require Export StateModel.
Local Open Scope nat_scope.
Local Open Scope list_scope.

(** [last_ret x h]: the last thing the controlling thread did in the run (or since it ended) was a completed cancel, suspend or resume, as [x] says. Logs are newest first. *)
Fixpoint last_ret (x : estate) (h : list kev) : bool := match h with [] => false | KRet y :: _ => estate_eqb y x | KReq _ :: _ | KBegin :: _ => false | _ :: r => last_ret x r end.
(** No iteration of an element begins after a completed cancel or suspend. *)
Fixpoint no_start (h : list kev) : Prop := match h with [] => True | KStart e :: r => (last_ret Cancelled r = false /\ last_ret Suspended r = false) /\ no_start r | _ :: r => no_start r end.
(** What happened since the run began *)
Fixpoint this_run (h : list kev) : list kev := match h with [] => [] | KBegin :: _ => [] | x :: r => x :: this_run r end.
Definition is_start (e : nat) (x : kev) : bool := match x with KStart e' => Nat.eqb e' e | _ => false end.
Definition starts (e : nat) (h : list kev) : nat := length (filter (is_start e) h).
Definition is_req (x : kev) : bool := match x with KReq _ => true | _ => false end.
(** The element failed in the run *)
Definition fails (h : list kev) : Prop := exists e, In (KFail e) h.
(** A suspend was called in the run *)
Definition is_susp (x : kev) : bool := match x with KReq Suspended => true | _ => false end.
(** Steps of elements in which isHold gives false, so that no body is repeated *)
Definition hold_free (s : kst) (l : klabel) : Prop := match l with LElem e b _ => (forall i ok, k_pc s e = EHold i ok -> b = false) | _ => False end.
(** A number of such steps one after the other *)
Inductive hf_run : kst -> nat -> kst -> Prop :=
| hf_nil s : hf_run s 0 s
| hf_cons s l s1 m s' : hold_free s l -> k_step s l = Some s1 -> hf_run s1 m s' -> hf_run s (S m) s'.
(** In a schedule: element [e] is not woken without a notification *)
Definition no_spurious (e : nat) (l : klabel) : Prop := match l with LElem e' b _ => e' = e -> b = false | _ => True end.
(** In a schedule: cancel and suspend are not called, resume may be *)
Definition only_resume (l : klabel) : Prop := match l with LCall x => x = Normal | _ => True end.
