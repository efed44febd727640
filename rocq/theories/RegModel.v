(** Registration of elements in one pipeline: what a call changes, also when it is refused.

    Simplified: an element is registered through one pipeline; names are numbers (0: none given, setName then sets the session, GElement.cpp 37); memory is never exhausted; the objects passed are not null
    (registering a null group throws std::bad_typeid). The iteration order of manager_elements_ is not modelled here. *)
From Verif Require Export GraphModel DynModel.
Local Open Scope nat_scope.
Local Open Scope list_scope.

(** The pipeline and the attributes of elements that registration reads or writes. [b_timeout]: timeout_ > 0; [b_mgr]: isRegistered(), GElement.cpp 149-151. *)
Record bst := mkB {
  b_g : gst; b_reg : list nat; b_repo : list nat; b_loop : nat -> nat; b_name : nat -> nat; b_timeout : nat -> bool; b_mgr : nat -> bool; b_init : bool }.
Definition set_bg (s : bst) (g : gst) : bst := mkB g (b_reg s) (b_repo s) (b_loop s) (b_name s) (b_timeout s) (b_mgr s) (b_init s).

(** Accepted; an error status; an exception. *)
Inductive routcome := ROk | RRefused | RThrown.

(** A call: registerGElement<T> with an element that is a group (already existing, [typed]: of class T) or a new node or adapter; or registerGNode/registerGGroup
    with an existing element ([typed]: of the kind of the function). [c_deps] is the iteration order of the std::set of pointers. *)
Inductive rclass := CNew | CGroup (typed : bool) | CDirect (typed : bool).
Record rcall := mkC { c_this : nat; c_class : rclass; c_deps : list (option nat); c_name : nat; c_loop : nat }.

(** GElement::addElementInfo, src/GraphCtrl/GraphElement/GElement.cpp 178-190, with setLoop (43-51, the exception for an element with a timeout). *)
Definition add_info (s : bst) (c : rcall) : bst * routcome :=
  let e := c_this c in
  if e_init (b_g s e) then (s, RRefused)
  else let '(g1, ok) := addDepend (b_g s) e (c_deps c) in
    if ok then
      if b_timeout s e && negb (Nat.eqb (c_loop c) 1) then (set_bg s g1, RThrown)
      else (mkB g1 (b_reg s) (b_repo s) (upd (b_loop s) e (c_loop c)) (upd (b_name s) e (c_name c))
              (b_timeout s) (b_mgr s) (b_init s), ROk)
    else (set_bg s g1, RRefused).
(** GPipeline::innerRegister, GPipeline.cpp 379-396: addElementInfo, addManagers (GElement.cpp 193-206), GElementManager::add, repository_.insert. *)
Definition inner_reg (s : bst) (c : rcall) : bst * routcome :=
  if b_init s then (s, RRefused)
  else match add_info s c with
       | (s1, ROk) => (mkB (b_g s1) (ins (b_reg s1) (c_this c)) (ins (b_repo s1) (c_this c)) (b_loop s1) (b_name s1) (b_timeout s1) (upd (b_mgr s1) (c_this c) true) (b_init s1), ROk)
       | r => r
       end.
(** GPipeline::registerGElement, GPipeline.inl 19-54; registerGNode and registerGGroup, GPipeline.cpp 127-156. *)
Definition register (s : bst) (c : rcall) : bst * routcome :=
  if b_init s then (s, RRefused)
  else match c_class c with
       | CGroup typed => if b_mgr s (c_this c) then (s, RRefused) else if typed then inner_reg s c else (s, RRefused)
       | CNew => inner_reg s c
       | CDirect typed =>
           if typed then
             match e_belong (b_g s (c_this c)) with
             | Some _ => (s, RRefused)
             | None => if b_mgr s (c_this c) then (s, RRefused) else inner_reg s c
             end
           else (s, RRefused)
       end.
Fixpoint register_all (s : bst) (l : list rcall) : bst * list routcome :=
  match l with
  | [] => (s, [])
  | c :: r => let '(s1, o) := register s c in let '(s2, os) := register_all s1 r in (s2, o :: os)
  end.
