(** What C102 says of a round of execution, in terms of its starts and ends only. *)
From Verif Require Import GraphSpec.
From Coq Require Import ZArith.
Local Open Scope nat_scope.
Local Open Scope list_scope.

(** Nothing starts twice, nothing foreign starts, nothing starts before its dependencies have finished without error. *)
Definition proper_round (g : graph) (tr : list gevent) : Prop :=
  starts_once tr /\ incl (starts tr) (els g) /\ starts_after_deps g tr.
(** Moreover every element started once and finished once, without error. *)
Definition complete_round (g : graph) (tr : list gevent) : Prop :=
  proper_round g tr /\ all_ran g tr /\ forall e r, In (GFinish e r) tr -> (0 <= code r)%Z.
(** [n] rounds of which all are complete, except that the last one may have stopped early. *)
Definition up_to_the_last (g : graph) (rounds : list (list gevent)) : Prop :=
  exists full last, rounds = full ++ last /\ length last <= 1 /\ Forall (complete_round g) full /\ Forall (proper_round g) last.
