(** Specification of daemons. *)
From Verif Require Export DaemModel.
Local Open Scope nat_scope.
Local Open Scope list_scope.

(** What calls of init and destroy ask for, newest first: the pipeline is initialised after an init that succeeds until a destroy that succeeds. *)
Fixpoint initialised (h : list dcall) : bool := match h with [] => false | CInit true :: _ => true | CDestroy true :: _ => false | _ :: r => initialised r end.
(** The daemons work from an init that reaches them until a destroy that reaches them. *)
Fixpoint working (h : list dcall) : bool := match h with [] => false | CInit _ :: _ => true | CDestroy _ :: _ => false | _ :: r => working r end.
(** No call failed after it had reached the daemons. *)
Definition clean (h : list dcall) : Prop := ~ In (CInit false) h /\ ~ In (CDestroy false) h.
(** A thread that executes nothing any more. *)
Definition ended (t : timer) : Prop := t_pc t = TNone \/ t_pc t = TEnd \/ t_pc t = TThrew.
(** Reached by a history in which the pipeline is deleted only while the daemons do not work. *)
Inductive with_care n iv : dst -> Prop :=
| wc_new : with_care n iv dst_new
| wc_step s l s' : with_care n iv s -> (l = DlDelete -> working (d_log s) = false) -> dstep n iv s l = DTo s' -> with_care n iv s'.
