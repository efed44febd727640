(** Which elements belong to whom, read off the configuration. *)
From Verif Require Export LockModel.
Local Open Scope nat_scope.
Local Open Scope list_scope.

(** The owner of an element: the pipeline, a region, or a group of another kind. *)
Inductive owner := OnPipe | OnRegion (g : nat) | OnGroup (g : nat).
Inductive sits (cs : list elt) : owner -> elt -> Prop :=
| sits_pipe t : In t cs -> sits cs OnPipe t
| sits_region o g ds t : sits cs o (Region g ds) -> In t ds -> sits cs (OnRegion g) t
| sits_group o g ds t : sits cs o (Plain g ds) -> In t ds -> sits cs (OnGroup g) t.
Definition grouped (t : elt) : Prop := match t with Node _ => False | _ => True end.
(** A group, or an element owned by the pipeline or by a region. *)
Definition watched (cs : list elt) (x : nat) : Prop :=
  exists o t, sits cs o t /\ eid t = x /\ (grouped t \/ o = OnPipe \/ exists g, o = OnRegion g).
(** A node (or function, fence, ...) in a cluster, condition, multi-condition, some-group or mutable. *)
Definition unwatched (cs : list elt) (x : nat) : Prop := exists g, sits cs (OnGroup g) (Node x).

(** A call is refused: an exception or an error status. *)
Definition turned_down (v : out status) : Prop := match v with Val st => (code st < 0)%Z | _ => True end.
(** The settings that the library means to be fixed from init to destroy: all but the list of aspects; in a mutable also not
    the loop count, the visibility and the dependences. *)
Definition same_but_mutable (k k' : conf) : Prop :=
  k_name k' = k_name k /\ k_level k' = k_level k /\ k_bind k' = k_bind k /\ k_timeout k' = k_timeout k /\ k_hold k' = k_hold k /\
  k_macro k' = k_macro k /\ k_eparams k' = k_eparams k /\ k_funs k' = k_funs k.
Definition same_settings (k k' : conf) : Prop :=
  same_but_mutable k k' /\ k_loop k' = k_loop k /\ k_visible k' = k_visible k /\ k_deps k' = k_deps k.
(** Calls that are meant to be refused after init, for elements in a mutable and for all others. *)
Definition meant_fixed (in_mutable : Prop) (c : scall) : Prop :=
  match c with SAspect _ => False | SLoop _ | SVisible _ | SDepend _ => ~ in_mutable | _ => True end.
(** [e] belongs to a mutable. *)
Definition in_mutable (mg : nat -> bool) (cs : list elt) (e : nat) : Prop :=
  exists g t, mg g = true /\ sits cs (OnGroup g) t /\ eid t = e.
