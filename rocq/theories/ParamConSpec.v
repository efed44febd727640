(** Specification for concurrent use of parameters. *)
From Verif Require Export ParamConModel.
Local Open Scope nat_scope.
Local Open Scope list_scope.

(** What thread [t] sees: it calls, the call takes effect once, it returns with the answer of that moment; and so on. *)
Definition mine (t : nat) (e : cev) : bool := match e with ECall u _ | EAcc u _ _ | ERet u _ _ => Nat.eqb u t end.
Inductive in_turn (t : nat) : list cev -> Prop :=
| it_nil : in_turn t []
| it_call o : in_turn t [ECall t o]
| it_acc o a : in_turn t [ECall t o; EAcc t o a]
| it_ret o a r : in_turn t r -> in_turn t (ECall t o :: EAcc t o a :: ERet t o a :: r).
(** Every effect is that of the same calls made one after the other (ParamModel, C26), in the order of the effects; as an
    effect lies between call and return, calls that do not overlap take effect in their order. *)
Definition atomic (tr : list cev) : Prop :=
  (forall t, in_turn t (filter (mine t) tr)) /\
  forall a t o v b, accs tr = a ++ (t, o, v) :: b -> v = p_answer (map (fun x => snd (fst x)) a) o.
(** No thread is in an operation. *)
Definition quiet (s : cst) : Prop := cs_lock s = None /\ forall t, cs_pc s t = Idle.
Definition calls (ls : list clabel) (o : pop) : Prop := exists t, In (LCall t o) ls.
(** The calls an element may make while others run, when all parameters were made before: look up, list, test, and make a
    parameter that exists already. [h]: the calls that took effect before. *)
From Verif Require Export ParamSpec.
Definition prepared (h : list pop) (o : pop) : Prop :=
  match o with PGet _ _ _ | PKeys | PHas _ => True | PCreate k _ | PCreatePy k _ => ~ free h k | _ => False end.
(** States the threads can get to from a new pipeline. *)
Definition reached (N : nat) (s : cst) : Prop := exists ls, crun N cs_new ls = CRun s.
