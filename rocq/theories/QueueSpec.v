(** Specification vocabulary for C91. *)
From Verif Require Export QueueModel.
From Coq Require Export Permutation.
Local Open Scope nat_scope.
Local Open Scope list_scope.

(** An operation on a double-ended queue that nobody else uses: the queue after it; None if the result is not the right one. *)
Definition list_eqb (a b : list nat) : bool := if list_eq_dec Nat.eq_dec a b then true else false.
Definition lin_step (l : list nat) (o : qop) (got : list nat) : option (list nat) :=
  match o with
  | OPush vs _ => if list_eqb got [] then Some (l ++ vs) else None
  | OTryPush v => if list_eqb got [] then Some (l ++ [v]) else None
  | OPop n => if list_eqb got (firstn n l) then Some (skipn n l) else None
  | OSteal n => if list_eqb got (firstn n (rev l)) then Some (rev (skipn n (rev l))) else None
  | OTimed => match l with x :: r => if list_eqb got [x] then Some r else None | [] => None end
  | OReset => if list_eqb got [] then Some l else None
  end.
(** The effects in a trace, one after the other. *)
Fixpoint replay (l : list nat) (tr : list qev) : option (list nat) :=
  match tr with
  | [] => Some l
  | VLin _ o got :: r => match lin_step l o got with Some l1 => replay l1 r | None => None end
  | _ :: r => replay l r
  end.
(** The events of one thread: every call has its effect, with the values that are returned, between call and return, or it fails without effect. *)
Inductive phase := HIdle | HCalled (o : qop) | HDone (got : list nat).
Definition is_push (o : qop) : bool := match o with OPush _ _ | OReset => true | _ => false end.
Definition qop_eq (a b : qop) : {a = b} + {a <> b}.
Proof. decide equality; try apply Nat.eq_dec; try apply Bool.bool_dec; apply list_eq_dec, Nat.eq_dec. Defined.
Definition proto_step (t : nat) (h : phase) (e : qev) : option phase :=
  match e with
  | VCall u o => if Nat.eqb u t then match h with HIdle => Some (HCalled o) | _ => None end else Some h
  | VLin u o got => if Nat.eqb u t then match h with HCalled p => if qop_eq o p then Some (HDone got) else None | _ => None end else Some h
  | VRet u r => if Nat.eqb u t then
                  match h, r with
                  | HDone got, Some g => if list_eqb got g then Some HIdle else None
                  | HCalled o, None => if is_push o then None else Some HIdle
                  | _, _ => None
                  end
                else Some h
  end.
Fixpoint proto (t : nat) (h : phase) (tr : list qev) : option phase :=
  match tr with [] => Some h | e :: r => match proto_step t h e with Some h1 => proto t h1 r | None => None end end.

(** Values put in and values taken out, in the order of the effects. *)
Definition pushed (tr : list qev) : list nat :=
  flat_map (fun e => match e with VLin _ (OPush vs _) _ => vs | VLin _ (OTryPush v) _ => [v] | _ => [] end) tr.
Definition taken (tr : list qev) : list nat :=
  flat_map (fun e => match e with VLin _ _ got => got | _ => [] end) tr.
Definition no_steal (tr : list qev) : Prop := forall t n, ~ In (VCall t (OSteal n)) tr.

(** Who has the mutex. *)
Definition holds (p : qpc) : bool := match p with PIn _ _ _ _ | PUnlock _ _ | PEval _ | PFail | PRIn => true | _ => false end.
(** Accesses to the container that the next action of a thread makes: None, reading or writing. *)
Inductive access := ANone | ARead | AWrite.
Definition next_access (p : qpc) : access := match p with PTest _ => ARead | PIn _ _ _ _ | PEval _ => AWrite | _ => ANone end.
(** Two threads are about to access the container, one of them writing, and nothing orders them. *)
Definition race (s : qst) : Prop := exists t u, t <> u /\ next_access (q_pc s t) = AWrite /\ next_access (q_pc s u) <> ANone.
Definition reading_outside (s : qst) : Prop := exists t o, q_pc s t = PTest o.

(** A thread that will wake a sleeping thread, or that is awake and will look at the queue. *)
Definition stirring (p : qpc) : Prop :=
  match p with PNotify _ _ | PWake _ | PEval _ | PLock | PUnlock (OPush _ true) _ | PIn (OPush _ true) _ _ _ | PRNotify => True | _ => False end.
(** Pushes of UAtomicQueue: one value each. *)
Definition single_push (ls : list qlabel) : Prop := forall t vs b, In (QCall t (OPush vs b)) ls -> b = true /\ length vs = 1.
Definition atomic_queue (ls : list qlabel) : Prop := single_push ls /\ forall t v, ~ In (QCall t (OTryPush v)) ls.

(** Labels that are no new call and no spurious wake up; labels of one thread. *)
Definition drain_label (lb : qlabel) : Prop := match lb with QStep _ _ | QLate _ => True | _ => False end.
Definition by_t (t : nat) (lb : qlabel) : Prop := match lb with QCall u _ | QStep u _ | QLate u | QSpurious u => u = t end.
