(** Specification of the pipeline manager, on histories of calls with their answers, newest first. *)
From Verif Require Export PmModel.
Local Open Scope nat_scope.
Local Open Scope list_scope.

(** The pipeline a thread inside run() runs. *)
Fixpoint running (h : list (pop * pans)) (u : nat) : option nat :=
  match h with
  | [] => None
  | (GRunBegin v, GPipe (Some q)) :: r => if Nat.eqb u v then Some q else running r u
  | (GRunEnd v _, _) :: r => if Nat.eqb u v then None else running r u
  | _ :: r => running r u
  end.
(** Handed out and not given back. *)
Fixpoint out (h : list (pop * pans)) (p : nat) : bool :=
  match h with
  | [] => false
  | (GFetch, GPipe (Some q)) :: r | (GRunBegin _, GPipe (Some q)) :: r => Nat.eqb p q || out r p
  | (GRelease q, GOk) :: r => negb (Nat.eqb p q) && out r p
  | (GRunEnd u _, _) :: r => match running r u with Some q => negb (Nat.eqb p q) && out r p | None => out r p end
  | (GClear, GOk) :: _ => false
  | _ :: r => out r p
  end.
(** Added and not removed; remove does not touch a pipeline handed out. *)
Fixpoint member (h : list (pop * pans)) (p : nat) : bool :=
  match h with
  | [] => false
  | (GAdd q, GOk) :: r => Nat.eqb p q || member r p
  | (GRemove q, GOk) :: r => if Nat.eqb p q then out r p else member r p
  | (GClear, GOk) :: _ => false
  | _ :: r => member r p
  end.
(** The manager is initialised. *)
Fixpoint ready (h : list (pop * pans)) : bool :=
  match h with
  | [] => false
  | (GInit _, GOk) :: _ => true
  | (GDestroy _, GOk) :: _ => false
  | _ :: r => ready r
  end.
(** Each pipeline is added only when it is not a member. *)
Fixpoint distinct (h : list (pop * pans)) : Prop :=
  match h with [] => True | (GAdd p, GOk) :: r => member r p = false /\ distinct r | _ :: r => distinct r end.
(** Nobody releases a pipeline that run() is using, and the manager is not cleared meanwhile. *)
Fixpoint owned (h : list (pop * pans)) : Prop :=
  match h with
  | [] => True
  | (GRelease q, _) :: r => (forall u, running r u <> Some q) /\ owned r
  | (GClear, _) :: r => (forall u, running r u = None) /\ owned r
  | _ :: r => owned r
  end.
