(** Specification of parameters, on the history of calls (oldest first) only. *)
From Verif Require Export ParamModel.
Local Open Scope nat_scope.
Local Open Scope list_scope.

(** [o] asks for a parameter [k] of type [t] to exist. *)
Definition asks (o : pop) (k t : nat) : Prop := o = PCreate k t \/ o = PCreatePy k t.
(** [o] ends the life of the parameter [k]. *)
Definition ends (o : pop) (k : nat) : Prop := o = PRemove k \/ o = PClear.
(** The key is free: every request for it was followed by its removal. *)
Definition free (h : list pop) (k : nat) : Prop :=
  forall a o t b, h = a ++ o :: b -> asks o k t -> exists e, In e b /\ ends e k.
(** Parameter [k] is alive, of type [t], and is the object made by call number [obj]: that call asked for it when the key was
    free, and nothing has removed it since. *)
Definition alive (h : list pop) (k t obj : nat) : Prop :=
  exists a o b, h = a ++ o :: b /\ asks o k t /\ free a k /\ obj = length a /\ forall e, In e b -> ~ ends e k.

(** Local parameters of an element: call number [obj] was the last addEParam of key [k] on [e] before [e] was initialised. *)
Definition early (h : list pop) (e : nat) : Prop := ~ In (PInit e) h.
Definition local (h : list pop) (e k t obj : nat) : Prop :=
  exists a b, h = a ++ PAddE e k t :: b /\ obj = length a /\ early a e /\
    forall b1 t' b2, b = b1 ++ PAddE e k t' :: b2 -> ~ early (a ++ PAddE e k t :: b1) e.

(** Object [obj] was got by [e] in its current round. *)
Definition got (h : list pop) (e obj : nat) : Prop :=
  exists a k t b, h = a ++ PGet e k t :: b /\ alive a k t obj /\ ~ In (PRound e) b.
