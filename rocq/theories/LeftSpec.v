(** What C115 says, in terms of what can be observed: starts and ends of elements, and what the owner does. *)
From Verif Require Export LeftModel GraphSpec.
From Coq Require Import ZArith.
Local Open Scope nat_scope.
Local Open Scope list_scope.

Definition n_starts (e : nat) (lg : list lev) : nat := length (filter (fun x => match x with VEv (GStart y) => Nat.eqb y e | _ => false end) lg).
Definition n_ends (e : nat) (lg : list lev) : nat := length (filter (fun x => match x with VEv (GFinish y _) => Nat.eqb y e | _ => false end) lg).
(** No element is being executed. *)
Definition at_rest (lg : list lev) : Prop := forall e, n_starts e lg = n_ends e lg.
Definition busy (lg : list lev) (e : nat) : Prop := n_ends e lg < n_starts e lg.
Definition by_owner (x : lev) : Prop := match x with VEv _ => False | _ => True end.
(** Whatever the owner does (sets up parameters for a run, resets them, returns from run, destroys, deletes), no element is being executed then. *)
Definition calm (lg : list lev) : Prop := forall a x b, lg = a ++ x :: b -> by_owner x -> at_rest a.
(** Elements start in runs only: the last thing the owner did before was to set up the parameters. *)
Definition inside (lg : list lev) : Prop := forall a e b, lg = a ++ VEv (GStart e) :: b -> exists a1 a2, a = a1 ++ VSetup :: a2 /\ forall x, In x a2 -> ~ by_owner x.
(** No element has reported an error. *)
Definition all_fine (lg : list lev) : Prop := forall e r, In (VEv (GFinish e r)) lg -> (0 <= code r)%Z.
