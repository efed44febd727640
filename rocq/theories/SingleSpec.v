(** The life of an object, read off the calls it receives. *)
From Verif Require Export SingleModel.
Local Open Scope nat_scope.
Local Open Scope list_scope.

(** It is alive after a successful init, until a successful destroy. *)
Fixpoint alive_from (b : bool) (tr : list ev) : bool :=
  match tr with
  | [] => b
  | EInit true :: tr => alive_from true tr
  | EDestroy true :: tr => alive_from false tr
  | _ :: tr => alive_from b tr
  end.
Definition alive (tr : list ev) : bool := alive_from false tr.
(** init is called only while it is not alive, destroy only while it is. *)
Definition alternate (tr : list ev) : Prop :=
  (forall a b ok, tr = a ++ EInit ok :: b -> alive a = false) /\ (forall a b ok, tr = a ++ EDestroy ok :: b -> alive a = true).
(** run is called only while it is alive. *)
Definition runs_alive (tr : list ev) : Prop := forall a b p q ok, tr = a ++ ERun p q ok :: b -> alive a = true.
(** The status that the last call of [h ++ [o]] returns. *)
Definition returns (h : list op) (o : op) (b : bool) : Prop := snd (step (after h) o) = b.
(** [h] has no destroy of any pipeline. *)
Definition no_destroy (h : list op) : Prop := forall p res, ~ In (ODestroy p res) h.
