(** What C132 speaks of. *)
From Verif Require Export TimUseModel.
Local Open Scope nat_scope.
Local Open Scope list_scope.

(** No call is going on. *)
Definition quiet (s : qst) : Prop := forall t, q_pc s t = PIdle.
(** Timer thread [w] was made and has not ended. *)
Definition running (s : qst) (w : nat) : Prop := w < q_n s /\ q_work s w <> KEnd.
(** The label begins a call. *)
Definition call (l : qlab) : Prop := match l with Start _ | Stop _ => True | _ => False end.
(** States reached if the users take turns: nobody calls start or stop before the call of another has returned. *)
Inductive turns : qst -> Prop :=
| tu_new : turns q_new
| tu_step s l s' : turns s -> (call l -> quiet s) -> qstep s l = QRun s' -> turns s'.
