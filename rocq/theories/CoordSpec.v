(** Specification vocabulary for C93. *)
From Verif Require Export CoordModel.
Local Open Scope nat_scope.
Local Open Scope list_scope.

(** The pool as the calls should see it: the list of secondary threads and those among them that were told to stop. *)
Record pool := mkP { o_list : list nat; o_told : list nat }.
Definition alive (p : pool) : list nat := filter (fun j => negb (memb j (o_told p))) (o_list p).
(** A release at once: stopped threads leave the list; it is refused if there are not enough others, else the first [n] of these are told to stop. *)
Definition release_at_once (p : pool) (n : Z) : pool * bool * list nat :=
  if (Z.of_nat (length (alive p)) <? n)%Z then (mkP (alive p) (o_told p), false, [])
  else (mkP (alive p) (o_told p ++ firstn (Z.to_nat n) (alive p)), true, firstn (Z.to_nat n) (alive p)).
(** A creation at once: as many of the threads [fresh] as wanted, and as there is room for. *)
Definition create_at_once (room : Z) (p : pool) (n : Z) (fresh : nat) : pool :=
  mkP (o_list p ++ seq fresh (Z.to_nat (Z.min n (room - Z.of_nat (length (o_list p)))))) (o_told p).

(** The log as a history of calls that happened one after the other. *)
Inductive history : list cev -> pool -> Prop :=
| hi_nil : history [] (mkP [] [])
| hi_rel log p a n ok q marked : history log p -> release_at_once p n = (q, ok, marked) -> history (log ++ [ERel a n ok (o_list p) (o_list q) marked]) q
| hi_cre log p a n new : history log p -> NoDup new -> (forall j, In j new -> ~ In j (o_list p) /\ ~ In j (o_told p)) -> length new <= Z.to_nat n ->
    history (log ++ [ECre a n (o_list p) (o_list p ++ new)]) (mkP (o_list p ++ new) (o_told p))
| hi_swp log p a keep : history log p -> (forall j, In j (o_told p) -> keep j = true) -> history (log ++ [ESwp a (o_list p) (filter keep (o_list p))]) (mkP (filter keep (o_list p)) (o_told p)).

(** No secondary thread makes these calls from its tasks. *)
Definition not_from_tasks (ls : list clabel) : Prop := forall j o, ~ In (CCall (ASec j) o) ls.
Definition no_call (lb : clabel) : Prop := match lb with CCall _ _ => False | _ => True end.
