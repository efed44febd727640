(** Parameters passed to aspects, daemons, events and stages, and local parameters of elements (all of them GPassedParam):
    src/GraphCtrl/GraphAspect/GAspectObject.inl, GraphDaemon/GDaemonObject.inl, GraphEvent/GEventManager.inl, GraphStage/GStage.inl,
    GStageManager.h, GraphElement/GElement.inl, GraphPipeline/GPipeline.inl 178-262.
    Objects live on a heap and are known by their address; the library and the user hold pointers to them. Addresses are not used
    again, so that the use of a deleted object shows. Types, values, elements and keys are nats. *)
From Verif Require Export ListUtil.
From Coq Require Import Lia.
Local Open Scope nat_scope.
Local Open Scope list_scope.

(** The objects that have a parameter of their own: the k-th aspect of an element, the k-th daemon, the event and the stage with a key
    (field param_ of each), and the place of a key in the local_params_ of an element *)
Inductive who := WAsp (e k : nat) | WDae (k : nat) | WEv (k : nat) | WSt (k : nat) | WLoc (e k : nat).
Definition who_dec (a b : who) : {a = b} + {a <> b}.
Proof. decide equality; apply Nat.eq_dec. Defined.
Definition updw {A} (f : who -> A) (w : who) (x : A) : who -> A := fun u => if who_dec u w then x else f u.

(** A pointer at hand: to an object of the user, to the parameter somebody holds (getAParam, getEParam, the argument of modify,
    trigger and launch), or null *)
Inductive ref := RVar (n : nat) | RHold (w : who) | RNull.

Record dst := mkD
  { d_heap : nat -> option (nat * nat);     (* type and value of the object at an address; None: no object, or deleted *)
    d_next : nat;
    d_var : nat -> option nat;              (* objects of the user *)
    d_own : who -> option nat;              (* param_ *)
    d_asp : nat -> nat;                     (* number of aspects of an element *)
    d_dae : nat;                            (* number of daemons *)
    d_ev : list nat; d_st : list nat;       (* keys of events_map_ and stage_map_ *)
    d_loc : list (nat * nat);               (* elements and keys of the local_params_ *)
    d_init : bool;                          (* is_init_ of the pipeline and its elements *)
    d_lost : list nat }.                    (* parameters of stages that no map refers to *)
Definition d_new : dst := mkD (fun _ => None) 0 (fun _ => None) (fun _ => None) (fun _ => 0) 0 [] [] [] false [].

Inductive dop :=
| DVar (n T v : nat)              (* the user makes an object *)
| DDel (n : nat)                  (* and deletes it *)
| DWrite (r : ref) (v : nat)      (* somebody writes through a pointer *)
| DAspect (e T : nat) (r : ref)   (* e->addGAspect<A, T>(r) *)
| DAspects (es : list nat) (T : nat) (r : ref)   (* pipeline->addGAspect<A, T>(es, r) *)
| DSetA (e k T : nat) (r : ref)   (* setAParam<T>(r), called by the k-th aspect of e *)
| DPop (e : nat)                  (* the last aspect of e is removed *)
| DDaemon (T : nat) (r : ref)     (* pipeline->addGDaemon<D, T>(ms, r) *)
| DSetD (k T : nat) (r : ref)     (* setDParam<T>(r), called by the k-th daemon *)
| DEvent (k T : nat) (r : ref)    (* pipeline->addGEvent<E, T>(k, r) *)
| DStage (k T : nat) (r : ref)    (* pipeline->addGStage<S, T>(k, n, r) *)
| DLocal (e k T : nat) (r : ref)  (* e->addEParam<T>(k, r) *)
| DGetA (e k T : nat)             (* getAParam<T>(), called by the k-th aspect of e *)
| DGetE (e k T : nat)             (* e->getEParam<T>(k) *)
| DSee (w : who)                  (* what modify, trigger and launch find behind the pointer they are given *)
| DInit (b : bool)                (* the pipeline is initialised, destroyed *)
| DEnd.                           (* the pipeline is deleted *)
Inductive dans :=
| ADone | AThrow | ANull
| AVal (T v : nat)                (* a pointer to an object of this type and value *)
| ANone.                          (* there is no such object to call, or the user's object exists already: not a program *)

(** The address behind a pointer *)
Definition deref (s : dst) (r : ref) : option nat :=
  match r with RVar n => d_var s n | RHold w => d_own s w | RNull => None end.
Definition set_heap (s : dst) (h : nat -> option (nat * nat)) (n : nat) : dst :=
  mkD h n (d_var s) (d_own s) (d_asp s) (d_dae s) (d_ev s) (d_st s) (d_loc s) (d_init s) (d_lost s).
Definition set_var (s : dst) (n : nat) (o : option nat) : dst :=
  mkD (d_heap s) (d_next s) (upd (d_var s) n o) (d_own s) (d_asp s) (d_dae s) (d_ev s) (d_st s) (d_loc s) (d_init s) (d_lost s).
Definition set_own (s : dst) (w : who) (o : option nat) : dst :=
  mkD (d_heap s) (d_next s) (d_var s) (updw (d_own s) w o) (d_asp s) (d_dae s) (d_ev s) (d_st s) (d_loc s) (d_init s) (d_lost s).
Definition set_asp (s : dst) (e n : nat) : dst :=
  mkD (d_heap s) (d_next s) (d_var s) (d_own s) (upd (d_asp s) e n) (d_dae s) (d_ev s) (d_st s) (d_loc s) (d_init s) (d_lost s).
Definition set_dae (s : dst) (n : nat) : dst :=
  mkD (d_heap s) (d_next s) (d_var s) (d_own s) (d_asp s) n (d_ev s) (d_st s) (d_loc s) (d_init s) (d_lost s).
Definition set_ev (s : dst) (l : list nat) : dst :=
  mkD (d_heap s) (d_next s) (d_var s) (d_own s) (d_asp s) (d_dae s) l (d_st s) (d_loc s) (d_init s) (d_lost s).
Definition set_st (s : dst) (l : list nat) : dst :=
  mkD (d_heap s) (d_next s) (d_var s) (d_own s) (d_asp s) (d_dae s) (d_ev s) l (d_loc s) (d_init s) (d_lost s).
Definition set_loc (s : dst) (l : list (nat * nat)) : dst :=
  mkD (d_heap s) (d_next s) (d_var s) (d_own s) (d_asp s) (d_dae s) (d_ev s) (d_st s) l (d_init s) (d_lost s).
Definition set_ini (s : dst) (b : bool) : dst :=
  mkD (d_heap s) (d_next s) (d_var s) (d_own s) (d_asp s) (d_dae s) (d_ev s) (d_st s) (d_loc s) b (d_lost s).
Definition set_lost (s : dst) (l : list nat) : dst :=
  mkD (d_heap s) (d_next s) (d_var s) (d_own s) (d_asp s) (d_dae s) (d_ev s) (d_st s) (d_loc s) (d_init s) l.

(** new, and delete: deleting what is no object is undefined *)
Definition h_new (s : dst) (T v : nat) : dst * nat := (set_heap s (upd (d_heap s) (d_next s) (Some (T, v))) (S (d_next s)), d_next s).
Definition h_del (s : dst) (o : nat) : option dst :=
  match d_heap s o with None => None | Some _ => Some (set_heap s (upd (d_heap s) o None) (d_next s)) end.
(** CGRAPH_DELETE_PTR(param_): a null pointer is left alone *)
Definition d_release (s : dst) (w : who) : option dst :=
  match d_own s w with None => Some s | Some o => match h_del s o with None => None | Some s1 => Some (set_own s1 w None) end end.
(** What clone(param) of a new object of type T makes of an object with the given type and value. It is written by the user:
    any function. (GPassedDefaultParam::clone, GPassedDefaultParam.h 22-24, takes nothing over.) *)
Definition cloner := nat -> nat -> nat -> nat.
(** The new object, and the call of clone, which reads [o]; [None]: [o] is no object any more *)
Definition d_clone (cl : cloner) (s : dst) (T o : nat) : option (dst * nat) :=
  match d_heap s o with None => None | Some (ty, v) => Some (h_new s T (cl T ty v)) end.
(** setAParam, GAspectObject.inl 16-27; setDParam, GDaemonObject.inl 16-27; setSParam, GStage.inl 16-27: the old object is deleted
    first. The pointer [r] was evaluated by the caller. *)
Definition d_set (cl : cloner) (s : dst) (w : who) (T : nat) (r : ref) : option dst :=
  match deref s r with
  | None => Some s
  | Some o =>
      match d_release s w with
      | None => None
      | Some s1 => match d_clone cl s1 T o with None => None | Some (s2, n) => Some (set_own s2 w (Some n)) end
      end
  end.
(** GElement::addGAspect, GElement.inl 18-32 *)
Definition d_aspect (cl : cloner) (s : dst) (e T : nat) (r : ref) : option dst :=
  match d_set cl s (WAsp e (d_asp s e)) T r with None => None | Some s1 => Some (set_asp s1 e (S (d_asp s1 e))) end.
(** The loop of GPipeline::addGAspect, GPipeline.inl 188-192; [all]: the elements of the repository *)
Fixpoint d_aspects (cl : cloner) (all : list nat) (s : dst) (es : list nat) (T : nat) (r : ref) : option dst :=
  match es with
  | [] => Some s
  | e :: es' =>
      if memb e all then match d_aspect cl s e T r with None => None | Some s1 => d_aspects cl all s1 es' T r end
      else d_aspects cl all s es' T r
  end.
(** Deleting what is in a list of places *)
Fixpoint d_releases (s : dst) (ws : list who) : option dst :=
  match ws with [] => Some s | w :: r => match d_release s w with None => None | Some s1 => d_releases s1 r end end.
(** Who there is when the pipeline is deleted; [all]: its elements *)
Definition d_all (all : list nat) (s : dst) : list who :=
  concat (map (fun e => map (WAsp e) (seq 0 (d_asp s e))) all) ++ map WDae (seq 0 (d_dae s)) ++ map WEv (d_ev s) ++ map WSt (d_st s)
  ++ map (fun p => WLoc (fst p) (snd p)) (d_loc s).
Definition pair_memb (e k : nat) (l : list (nat * nat)) : bool := existsb (fun p => Nat.eqb (fst p) e && Nat.eqb (snd p) k) l.
(** createWithParam, GEventManager.inl 16-36: a key that is in use is refused, and addGEvent throws (GPipeline.inl 238-248) *)
Definition d_event (cl : cloner) (s : dst) (k T : nat) (r : ref) : option (dst * dans) :=
  if memb k (d_ev s) then Some (s, AThrow)
  else match d_set cl s (WEv k) T r with None => None | Some s1 => Some (set_ev s1 (d_ev s1 ++ [k]), ADone) end.
(** create, GStageManager.h 61-73: insert leaves a key that is in use as it is, and the new stage is lost with its parameter *)
Definition d_stage (cl : cloner) (s : dst) (k T : nat) (r : ref) : option (dst * dans) :=
  if memb k (d_st s) then
    match deref s r with
    | None => Some (s, ADone)
    | Some o => match d_clone cl s T o with None => None | Some (s1, n) => Some (set_lost s1 (n :: d_lost s1), ADone) end
    end
  else match d_set cl s (WSt k) T r with None => None | Some s1 => Some (set_st s1 (d_st s1 ++ [k]), ADone) end.
(** addEParam, GElement.inl 48-62: null is refused; the old object of the key is deleted before the new one is cloned *)
Definition d_local (cl : cloner) (s : dst) (e k T : nat) (r : ref) : option (dst * dans) :=
  if d_init s then Some (s, AThrow)
  else match deref s r with
       | None => Some (s, AThrow)
       | Some _ => match d_set cl s (WLoc e k) T r with
                   | None => None
                   | Some s1 => Some (if pair_memb e k (d_loc s1) then s1 else set_loc s1 ((e, k) :: d_loc s1), ADone)
                   end
       end.
(** What a pointer shows: null, or the type and value behind it; [None]: a deleted object is read *)
Definition d_look (s : dst) (o : option nat) : option dans :=
  match o with None => Some ANull | Some a => match d_heap s a with None => None | Some (T, v) => Some (AVal T v) end end.
(** popLast, GAspectManager.cpp 93-101, through popLastAspect, GElement.cpp 519-532: refused when initialised or without aspects *)
Definition d_pop (s : dst) (e : nat) : option (dst * dans) :=
  match d_init s, d_asp s e with
  | false, S k => match d_release s (WAsp e k) with None => None | Some s1 => Some (set_asp s1 e k, ADone) end
  | _, _ => Some (s, ANull)
  end.
(** Is there such a thing to be asked? *)
Definition there (s : dst) (w : who) : bool :=
  match w with
  | WAsp e k => Nat.ltb k (d_asp s e)
  | WDae k => Nat.ltb k (d_dae s)
  | WEv k => memb k (d_ev s)
  | WSt k => memb k (d_st s)
  | WLoc e k => pair_memb e k (d_loc s)
  end.
Definition done (o : option dst) : option (dst * dans) := match o with None => None | Some s => Some (s, ADone) end.
Definition say (s : dst) (o : option dans) : option (dst * dans) := match o with None => None | Some a => Some (s, a) end.
(** One call; [None]: undefined *)
Definition d_step (cl : cloner) (all : list nat) (s : dst) (op : dop) : option (dst * dans) :=
  match op with
  | DVar n T v => match d_var s n with Some _ => Some (s, ANone) | None => let '(s1, o) := h_new s T v in Some (set_var s1 n (Some o), ADone) end
  | DDel n => match d_var s n with None => Some (s, ANone) | Some o => done (match h_del s o with None => None | Some s1 => Some (set_var s1 n None) end) end
  | DWrite r v =>
      match deref s r with
      | None => None
      | Some o => match d_heap s o with None => None | Some (T, _) => Some (set_heap s (upd (d_heap s) o (Some (T, v))) (d_next s), ADone) end
      end
  | DAspect e T r => if memb e all then done (d_aspect cl s e T r) else Some (s, ANone)
  | DAspects es T r => (* GPipeline.inl 182-195: no elements means all of them; a set of elements has none twice *)
      if d_init s then Some (s, AThrow) else done (d_aspects cl all s (nodup Nat.eq_dec (match es with [] => all | _ => es end)) T r)
  | DSetA e k T r => if there s (WAsp e k) then done (d_set cl s (WAsp e k) T r) else Some (s, ANone)
  | DPop e => d_pop s e
  | DDaemon T r => (* GPipeline.inl 201-214 *)
      if d_init s then Some (s, AThrow)
      else done (match d_set cl s (WDae (d_dae s)) T r with None => None | Some s1 => Some (set_dae s1 (S (d_dae s1))) end)
  | DSetD k T r => if there s (WDae k) then done (d_set cl s (WDae k) T r) else Some (s, ANone)
  | DEvent k T r => if d_init s then Some (s, AThrow) else d_event cl s k T r
  | DStage k T r => if d_init s then Some (s, AThrow) else d_stage cl s k T r
  | DLocal e k T r => if memb e all then d_local cl s e k T r else Some (s, ANone)
  | DGetA e k T => (* GAspectObject.inl 32-43: throws without a parameter; null when the type is another one *)
      if there s (WAsp e k) then
        match d_look s (d_own s (WAsp e k)) with
        | None => None
        | Some (AVal T' v) => Some (s, if Nat.eqb T' T then AVal T' v else ANull)
        | Some _ => Some (s, AThrow)
        end
      else Some (s, ANone)
  | DGetE e k T => (* GElement.inl 67-76 *)
      match d_look s (d_own s (WLoc e k)) with
      | None => None
      | Some (AVal T' v) => Some (s, if Nat.eqb T' T then AVal T' v else ANull)
      | Some _ => Some (s, ANull)
      end
  | DSee w => if there s w then say s (d_look s (d_own s w)) else Some (s, ANone)
  | DInit b => Some (set_ini s b, ADone)
  | DEnd => (* the destructors: GElement.cpp 19-28, GAspectObject.cpp 25-27, GDaemonObject.h 25-27, GEvent.cpp 18-20, GStage.cpp 22-24 *)
      match d_releases s (d_all all s) with
      | None => None
      | Some s1 => Some (set_ini (set_loc (set_st (set_ev (set_dae (mkD (d_heap s1) (d_next s1) (d_var s1) (d_own s1) (fun _ => 0)
                                   (d_dae s1) (d_ev s1) (d_st s1) (d_loc s1) (d_init s1) (d_lost s1)) 0) []) []) []) false, ADone)
      end
  end.
Fixpoint d_run (cl : cloner) (all : list nat) (s : dst) (h : list dop) : option (dst * list dans) :=
  match h with
  | [] => Some (s, [])
  | op :: r =>
      match d_step cl all s op with
      | None => None
      | Some (s1, a) => match d_run cl all s1 r with None => None | Some (s2, l) => Some (s2, a :: l) end
      end
  end.
