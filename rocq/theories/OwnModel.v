(** Who owns elements and pipelines: creation, registration, removal and the destructors.

    Elements and pipelines are numbered in the order of their allocation; an address is not reused. Memory safety is explicit: a call
    that uses a deleted element or pipeline, or deletes one a second time, has the outcome [OBad].
    Not modelled here: what elements do when they run, the daemon/param/event/stage managers (deleted with their pipeline,
    GPipeline.cpp 26-33), aspects and local parameters (deleted with their element, GElement.cpp 16-22), out-of-memory,
    the errors of setLoop/setName, elements of a GMutable that are relinked while initialised. *)
From Verif Require Export GraphModel.
Local Open Scope nat_scope.
Local Open Scope list_scope.

(** What an element is: a GNode, a GAdapter or a GGroup (src/GraphCtrl/GraphElement/GElementDefine.h, GElementType). *)
Inductive okind := KNode | KAdapter | KGroup.
Definition okind_eqb (a b : okind) : bool := match a, b with KNode, KNode | KAdapter, KAdapter | KGroup, KGroup => true | _, _ => false end.

(** The heap. [o_ne]/[o_np]: number of elements/pipelines allocated so far. [o_made]: who allocated what, (element, pipeline), latest first.
    [o_edead]/[o_pdead]: the deletions, latest first.
    [o_list]: GPipelineFactory::s_pipeline_list_ (GPipelineFactory.cpp 13). [o_repo p]: GElementRepository::elements_ of p (GElementRepository.h 94).
    [o_mgr p]: GElementManager::manager_elements_ of p. [o_pinit p]: is_init_ of p. [o_g]: belong_, dependence_, run_before_, is_init_ of elements (GraphModel).
    [o_kids]: GGroup::children_. [o_kind]: dynamic type. [o_reg]: GElement::isRegistered, GElement.cpp 149-151 (the managers are set). *)
Record ost := mkO {
  o_ne : nat; o_np : nat; o_made : list (nat * nat); o_edead : list nat; o_pdead : list nat; o_list : list nat;
  o_repo : nat -> list nat; o_mgr : nat -> list nat; o_pinit : nat -> bool;
  o_g : gst; o_kids : nat -> list nat; o_kind : nat -> okind; o_reg : nat -> bool }.

Definition set_g s g := mkO (o_ne s) (o_np s) (o_made s) (o_edead s) (o_pdead s) (o_list s) (o_repo s) (o_mgr s) (o_pinit s) g (o_kids s) (o_kind s) (o_reg s).
Definition set_reg s r := mkO (o_ne s) (o_np s) (o_made s) (o_edead s) (o_pdead s) (o_list s) (o_repo s) (o_mgr s) (o_pinit s) (o_g s) (o_kids s) (o_kind s) r.
Definition set_kids s k := mkO (o_ne s) (o_np s) (o_made s) (o_edead s) (o_pdead s) (o_list s) (o_repo s) (o_mgr s) (o_pinit s) (o_g s) k (o_kind s) (o_reg s).
Definition set_repo s r := mkO (o_ne s) (o_np s) (o_made s) (o_edead s) (o_pdead s) (o_list s) r (o_mgr s) (o_pinit s) (o_g s) (o_kids s) (o_kind s) (o_reg s).
Definition set_mgr s m := mkO (o_ne s) (o_np s) (o_made s) (o_edead s) (o_pdead s) (o_list s) (o_repo s) m (o_pinit s) (o_g s) (o_kids s) (o_kind s) (o_reg s).
Definition set_pinit s i := mkO (o_ne s) (o_np s) (o_made s) (o_edead s) (o_pdead s) (o_list s) (o_repo s) (o_mgr s) i (o_g s) (o_kids s) (o_kind s) (o_reg s).
Definition set_list s l := mkO (o_ne s) (o_np s) (o_made s) (o_edead s) (o_pdead s) l (o_repo s) (o_mgr s) (o_pinit s) (o_g s) (o_kids s) (o_kind s) (o_reg s).
Definition set_edead s d := mkO (o_ne s) (o_np s) (o_made s) d (o_pdead s) (o_list s) (o_repo s) (o_mgr s) (o_pinit s) (o_g s) (o_kids s) (o_kind s) (o_reg s).
Definition set_pdead s d := mkO (o_ne s) (o_np s) (o_made s) (o_edead s) d (o_list s) (o_repo s) (o_mgr s) (o_pinit s) (o_g s) (o_kids s) (o_kind s) (o_reg s).

(** Before the first call of the program. *)
Definition o_new : ost := mkO 0 0 [] [] [] [] (fun _ => []) (fun _ => []) (fun _ => false) (fun _ => mkElem None [] [] 0 false false) (fun _ => []) (fun _ => KNode) (fun _ => false).

Definition e_alive (s : ost) (e : nat) : bool := Nat.ltb e (o_ne s) && negb (memb e (o_edead s)).
Definition p_alive (s : ost) (p : nat) : bool := Nat.ltb p (o_np s) && negb (memb p (o_pdead s)).

(** What a call returns: OK with the element it made or registered, an error status (or a null/false answer), an exception. *)
Inductive ores := OOk (e : option nat) | OErr | OThrow.
Inductive oout := OBad | ORet (r : ores) (s : ost).

(** [new T]: the constructor of an element, called on behalf of pipeline [p]. *)
Definition new_elem (s : ost) (p : nat) (k : okind) : ost :=
  mkO (S (o_ne s)) (o_np s) ((o_ne s, p) :: o_made s) (o_edead s) (o_pdead s) (o_list s) (o_repo s) (o_mgr s) (o_pinit s)
      (upd (o_g s) (o_ne s) (mkElem None [] [] 0 false false)) (upd (o_kids s) (o_ne s) []) (upd (o_kind s) (o_ne s) k) (upd (o_reg s) (o_ne s) false).

(** An element and everything nested in it: the elements met by GElementRepository::fetch (GElementRepository.cpp 93-102) and by
    GGroup::addManagers (GGroup.cpp 102-118). A group is allocated after its children, so [S e] steps of descent are enough. *)
Fixpoint nest (n : nat) (kids : nat -> list nat) (e : nat) : list nat :=
  match n with 0 => [] | S m => e :: flat_map (nest m kids) (kids e) end.
Definition nested (s : ost) (e : nat) : list nat := nest (S e) (o_kids s) e.

(** GElement::addElementInfo, GElement.cpp 178-190. *)
Definition add_info (g : gst) (e : nat) (deps : list (option nat)) : gst * bool := if e_init (g e) then (g, false) else addDepend g e deps.
(** GElement::addManagers (GElement.cpp 193-205), GGroup::addManagers (GGroup.cpp 102-118): refused for initialised elements, recursive for groups. *)
Definition add_managers (s : ost) (e : nat) : ost * bool :=
  (set_reg s (fun x => o_reg s x || (memb x (nested s e) && negb (e_init (o_g s x)))), forallb (fun x => negb (e_init (o_g s x))) (nested s e)).
(** Insertion into a std::set. *)
Definition set_ins (l : list nat) (x : nat) : list nat := if memb x l then l else l ++ [x].

(** GPipeline::innerRegister, GPipeline.cpp 379-396. *)
Definition inner_register (s : ost) (p e : nat) (deps : list (option nat)) : ores * ost :=
  if o_pinit s p then (OErr, s) else
  let '(g1, ok) := add_info (o_g s) e deps in
  if negb ok then (OErr, set_g s g1) else
  let '(s2, ok2) := add_managers (set_g s g1) e in
  if negb ok2 then (OErr, s2) else
  (OOk (Some e), set_repo (set_mgr s2 (upd (o_mgr s2) p (set_ins (o_mgr s2 p) e))) (upd (o_repo s2) p (set_ins (o_repo s2 p) e))).

(** GPipeline::registerGElement for a node or adapter type: the element is made here, GPipeline.inl 18-54, 77-91. *)
Definition reg_new (s : ost) (p : nat) (k : okind) (deps : list (option nat)) : ores * ost :=
  if o_pinit s p then (OErr, s) else
  if okind_eqb k KGroup then (OErr, s) else
  inner_register (new_elem s p k) p (o_ne s) deps.
(** GPipeline::registerGElement for a group type, GPipeline.inl 18-54. [same]: the dynamic type of the group is the given one.
    A null pointer makes typeid throw. *)
Definition reg_group (s : ost) (p : nat) (e : option nat) (same : bool) (deps : list (option nat)) : ores * ost :=
  if o_pinit s p then (OErr, s) else
  match e with
  | None => (OThrow, s)
  | Some e => if o_reg s e then (OErr, s) else if negb (same && okind_eqb (o_kind s e) KGroup) then (OErr, s) else inner_register s p e deps
  end.
(** GPipeline::registerGNode(GElementPPtr, ...) and registerGGroup(GElementPPtr, ...), GPipeline.cpp 127-156: [k] tells which. *)
Definition reg_old (s : ost) (p : nat) (k : okind) (e : option nat) (deps : list (option nat)) : ores * ost :=
  if o_pinit s p then (OErr, s) else
  match e with
  | None => (OErr, s)
  | Some e => if negb (okind_eqb (o_kind s e) k) then (OErr, s) else
      match e_belong (o_g s e) with
      | Some _ => (OErr, s)
      | None => if o_reg s e then (OErr, s) else inner_register s p e deps
      end
  end.
(** GPipeline::createGNode, GPipeline.inl 122-135. *)
Definition mk_node (s : ost) (p : nat) (deps : list (option nat)) : ores * ost :=
  if o_pinit s p then (OThrow, s) else
  let s1 := new_elem s p KNode in let e := o_ne s in
  let '(g1, ok) := add_info (o_g s1) e deps in
  if negb ok then (OThrow, set_g s1 g1) else
  (OOk (Some e), set_repo (set_g s1 g1) (upd (o_repo s1) p (set_ins (o_repo s1 p) e))).
(** GGroup::addElement, GGroup.cpp 45-56. The managers of a new group are null, so addManagers changes nothing; addElementEx does not fail. *)
Definition add_kid (s : ost) (g k : nat) : ost :=
  set_g (set_kids s (upd (o_kids s) g (o_kids s g ++ [k]))) (upd (o_g s) k (let x := o_g s k in mkElem (Some g) (e_dep x) (e_succ x) (e_left x) (e_init x) (e_mut x))).
Fixpoint somes (l : list (option nat)) : list nat := match l with [] => [] | Some x :: r => x :: somes r | None :: r => somes r end.
Definition has_null (l : list (option nat)) : bool := existsb (fun o => match o with None => true | _ => false end) l.
(** GPipeline::createGGroup, GPipeline.inl 147-176. *)
Definition mk_group (s : ost) (p : nat) (kids deps : list (option nat)) : ores * ost :=
  if o_pinit s p then (OThrow, s) else
  if has_null kids || has_null deps then (OThrow, s) else
  let g := o_ne s in
  let s1 := fold_left (fun x k => add_kid x g k) (somes kids) (new_elem s p KGroup) in
  let '(g1, ok) := add_info (o_g s1) g deps in
  if negb ok then (OThrow, set_g s1 g1) else
  (OOk (Some g), set_repo (set_g s1 g1) (upd (o_repo s1) p (set_ins (o_repo s1 p) g))).

(** GElementRepository::~GElementRepository, GElementRepository.cpp 158-163: deletes every element of the set. *)
Fixpoint del_elems (s : ost) (l : list nat) : option ost :=
  match l with [] => Some s | e :: r => if e_alive s e then del_elems (set_edead s (e :: o_edead s)) r else None end.
(** delete on a pipeline: GPipeline::~GPipeline, GPipeline.cpp 26-33, then the destructor of its repository. *)
Definition del_pipe (s : ost) (p : nat) : option ost :=
  if p_alive s p then del_elems (set_pdead s (p :: o_pdead s)) (o_repo s p) else None.
Fixpoint del_pipes (s : ost) (l : list nat) : option ost :=
  match l with [] => Some s | p :: r => match del_pipe s p with None => None | Some s' => del_pipes s' r end end.

(** GElementRepository::fetchAll, GElementRepository.cpp 80-90: everything registered, and everything nested in it, is put into the repository. *)
Definition fetch_all (s : ost) (p : nat) : ost :=
  set_repo s (upd (o_repo s) p (fold_left set_ins (flat_map (nested s) (o_mgr s p)) (o_repo s p))).
(** The elements a pipeline uses when it is initialised, run or destroyed: those of its repository, and the successors (run_before_) of the
    registered ones and of what is nested in them (engines: GEngine.h 60-120, GDynamicEngine.cpp 150-190; an overapproximation). *)
Definition used (s : ost) (p : nat) : list nat :=
  o_repo s p ++ flat_map (fun e => e_succ (o_g s e)) (flat_map (nested s) (o_mgr s p)).
Definition set_einit (s : ost) (l : list nat) (b : bool) : ost :=
  set_g s (fun x => if memb x l then let y := o_g s x in mkElem (e_belong y) (e_dep y) (e_succ y) (e_left y) b (e_mut y) else o_g s x).

(** The calls of a program. In [OInit]/[OFini] the option says how the call ends: None, it succeeds; Some l, it fails after having
    (de)initialised the elements of l. *)
Inductive ocall :=
| OCreate | ORemove (p : option nat) | OClear
| ORegNew (p : nat) (k : okind) (deps : list (option nat))
| ORegGroup (p : nat) (e : option nat) (same : bool) (deps : list (option nat))
| ORegOld (p : nat) (k : okind) (e : option nat) (deps : list (option nat))
| OMkNode (p : nat) (deps : list (option nat))
| OMkGroup (p : nat) (kids deps : list (option nat))
| OInit (p : nat) (w : option (list nat)) | ORun (p : nat) | OFini (p : nat) (w : option (list nat)).

(** The pipeline a call is made on and the elements it names. *)
Definition on_pipe (c : ocall) : option nat :=
  match c with
  | OCreate | OClear | ORemove _ => None
  | ORegNew p _ _ | ORegGroup p _ _ _ | ORegOld p _ _ _ | OMkNode p _ | OMkGroup p _ _ | OInit p _ | ORun p | OFini p _ => Some p
  end.
Definition names (c : ocall) : list nat :=
  match c with
  | ORegNew _ _ d | OMkNode _ d => somes d
  | ORegGroup _ e _ d | ORegOld _ _ e d => somes (e :: d)
  | OMkGroup _ k d => somes (k ++ d)
  | _ => []
  end.

Definition ret (x : ores * ost) : oout := ORet (fst x) (snd x).
(** The pipeline of the call exists. *)
Definition pipe_ok (s : ost) (c : ocall) : bool := match on_pipe c with Some p => p_alive s p | None => true end.
(** One call. GPipelineFactory::create/remove/clear: GPipelineFactory.cpp 16-50. init: GPipeline.cpp 36-53, 359-376; run/destroy: GPipeline.cpp 56-100.
    A call on a deleted pipeline, or naming a deleted element, is bad even where the code would not look at it. *)
Definition ostep (s : ost) (c : ocall) : oout :=
  if negb (pipe_ok s c) then OBad else
  if negb (forallb (e_alive s) (names c)) then OBad else
  match c with
  | OCreate => ORet (OOk None) (mkO (o_ne s) (S (o_np s)) (o_made s) (o_edead s) (o_pdead s) (o_list s ++ [o_np s]) (upd (o_repo s) (o_np s) []) (upd (o_mgr s) (o_np s) [])
                                   (upd (o_pinit s) (o_np s) false) (o_g s) (o_kids s) (o_kind s) (o_reg s))
  | ORemove None => ORet OErr s
  | ORemove (Some p) => match del_pipe (set_list s (filter (fun q => negb (Nat.eqb q p)) (o_list s))) p with None => OBad | Some s' => ORet (OOk None) s' end
  | OClear => match del_pipes s (o_list s) with None => OBad | Some s' => ORet (OOk None) (set_list s' []) end
  | ORegNew p k d => ret (reg_new s p k d)
  | ORegGroup p e t d => ret (reg_group s p e t d)
  | ORegOld p k e d => ret (reg_old s p k e d)
  | OMkNode p d => ret (mk_node s p d)
  | OMkGroup p k d => ret (mk_group s p k d)
  | OInit p w => if o_pinit s p then ORet OErr s else
      let s1 := fetch_all s p in
      if negb (forallb (e_alive s) (used s1 p)) then OBad else
      match w with None => ORet (OOk None) (set_pinit (set_einit s1 (flat_map (nested s) (o_mgr s p)) true) (upd (o_pinit s) p true)) | Some l => ORet OErr (set_einit s1 l true) end
  | ORun p => if negb (o_pinit s p) then ORet OErr s else if negb (forallb (e_alive s) (used s p)) then OBad else ORet (OOk None) s
  | OFini p w => if negb (o_pinit s p) then ORet OErr s else
      if negb (forallb (e_alive s) (used s p)) then OBad else
      match w with None => ORet (OOk None) (set_pinit (set_einit s (flat_map (nested s) (o_mgr s p)) false) (upd (o_pinit s) p false)) | Some l => ORet OErr (set_einit s l false) end
  end.
(** A program: its calls one after another, with what they returned. *)
Fixpoint orun (s : ost) (cs : list ocall) : option (list ores * ost) :=
  match cs with
  | [] => Some ([], s)
  | c :: r => match ostep s c with OBad => None | ORet x s' => match orun s' r with None => None | Some (xs, s'') => Some (x :: xs, s'') end end
  end.
