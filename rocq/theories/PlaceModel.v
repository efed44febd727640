(** Where an element is: groups and their children, the elements registered at the pipeline, belong_.
    src/GraphCtrl/GraphPipeline/GPipeline.inl 19-54 (registerGElement), 118-168 (createGNode, createGGroup), GPipeline.cpp 127-156 (registerGNode, registerGGroup),
    379-402 (innerRegister, __registerGElement_4py), src/GraphCtrl/GraphElement/GGroup/GGroup.cpp 43-61, 107-133.
    All calls are made before init. Simplified: dependencies, names and loops are left out (RegModel), pointers are not null, groups have the class asked for,
    the managers are one flag (isRegistered, GElement.cpp 149-151). An element is named by the number of the call that made it. *)
From Verif Require Export ListUtil.
Local Open Scope nat_scope.
Local Open Scope list_scope.

Record lst := mkL
  { l_all : list nat;                (* the elements made so far *)
    l_group : nat -> bool;           (* is a GGroup *)
    l_region : nat -> bool;          (* is a GRegion: the children are kept in a set as well, GRegion.cpp 60-66 *)
    l_kids : nat -> list nat;        (* children_ *)
    l_belong : nat -> option nat;    (* belong_ *)
    l_mgr : nat -> bool;             (* isRegistered() *)
    l_roots : list nat }.            (* element_manager_->manager_elements_ of the pipeline *)
Definition l_new : lst := mkL [] (fun _ => false) (fun _ => false) (fun _ => []) (fun _ => None) (fun _ => false) [].

Inductive lop :=
| LNode                              (* createGNode<T>() *)
| LGroup (region : bool) (els : list nat)   (* createGGroup<T>(els) *)
| LRegNew                            (* registerGElement<T>(&e), T a node or an adapter: e is made here *)
| LRegType (g : nat)                 (* registerGElement<T>(&g), T a group *)
| LRegDirect (e : nat)               (* registerGNode(&e), registerGGroup(&e) *)
| LAddPy (g : nat) (els : list nat)  (* python: g.addGElements(els) *)
| LRegPy (e : nat).                  (* python: pipeline.registerGElement(e) *)
Inductive lans :=
| LOk
| LRefused
| LEndless                           (* recursion without end *)
| LBad.                              (* not a call: the element does not exist or is not a group *)

(** An element and everything below it, in the order of a recursive walk over [kids]; [None]: deeper than [fuel]. *)
Fixpoint concat_opt (l : list (option (list nat))) : option (list nat) :=
  match l with
  | [] => Some []
  | None :: _ => None
  | Some x :: r => match concat_opt r with Some y => Some (x ++ y) | None => None end
  end.
Fixpoint walk (fuel : nat) (kids : nat -> list nat) (e : nat) : option (list nat) :=
  match fuel with
  | 0 => None
  | S f => match concat_opt (map (walk f kids) (kids e)) with Some l => Some (e :: l) | None => None end
  end.
(** std::set::emplace; the order (GElementSorter) is that of LevelModel and left out here. *)
Definition set_add (e : nat) (l : list nat) : list nat := if memb e l then l else l ++ [e].

(** GElement::addManagers and GGroup::addManagers, GElement.cpp 193-206, GGroup.cpp 107-124: the element and all below. *)
Definition give_managers (n : nat) (s : lst) (e : nat) : option lst :=
  match walk (S n) (l_kids s) e with
  | Some l => Some (mkL (l_all s) (l_group s) (l_region s) (l_kids s) (l_belong s) (fun x => memb x l || l_mgr s x) (l_roots s))
  | None => None
  end.
(** GPipeline::innerRegister, GPipeline.cpp 379-396 *)
Definition l_inner (n : nat) (s : lst) (e : nat) : lst * lans :=
  match give_managers n s e with
  | Some s1 => (mkL (l_all s1) (l_group s1) (l_region s1) (l_kids s1) (l_belong s1) (l_mgr s1) (set_add e (l_roots s1)), LOk)
  | None => (s, LEndless)
  end.
(** GGroup::addElement, GGroup.cpp 43-56: belong_ is overwritten, the managers only passed on if the group has them. *)
Definition l_add (n : nat) (s : lst) (g e : nat) : option lst :=
  let s1 := mkL (l_all s) (l_group s) (l_region s) (upd (l_kids s) g (l_kids s g ++ [e])) (upd (l_belong s) e (Some g)) (l_mgr s) (l_roots s) in
  if l_mgr s g then give_managers n s1 e else Some s1.
Fixpoint l_add_all (n : nat) (s : lst) (g : nat) (els : list nat) : option lst :=
  match els with [] => Some s | e :: r => match l_add n s g e with Some s1 => l_add_all n s1 g r | None => None end end.
(** A new element [n]. *)
Definition l_make (n : nat) (group region : bool) (s : lst) : lst :=
  mkL (l_all s ++ [n]) (upd (l_group s) n group) (upd (l_region s) n region) (l_kids s) (l_belong s) (l_mgr s) (l_roots s).
Definition exist (s : lst) (els : list nat) : bool := forallb (fun e => memb e (l_all s)) els.
Definition l_step (n : nat) (s : lst) (o : lop) : lst * lans :=
  match o with
  | LNode => (l_make n false false s, LOk)
  | LGroup region els =>
      if exist s els then
        match l_add_all n (l_make n true region s) n els with Some s1 => (s1, LOk) | None => (s, LEndless) end
      else (s, LBad)
  | LRegNew => l_inner n (l_make n false false s) n
  | LRegType g => if exist s [g] && l_group s g then (if l_mgr s g then (s, LRefused) else l_inner n s g) else (s, LBad)
  | LRegDirect e =>
      if exist s [e] then
        match l_belong s e with
        | Some _ => (s, LRefused)
        | None => if l_mgr s e then (s, LRefused) else l_inner n s e
        end
      else (s, LBad)
  | LAddPy g els =>
      if exist s (g :: els) && l_group s g then match l_add_all n s g els with Some s1 => (s1, LOk) | None => (s, LEndless) end
      else (s, LBad)
  | LRegPy e => if exist s [e] then l_inner n s e else (s, LBad)
  end.
(** The state after a history, and the answers. *)
Fixpoint l_run (n : nat) (s : lst) (h : list lop) : lst * list lans :=
  match h with
  | [] => (s, [])
  | o :: r => let '(s1, a) := l_step n s o in let '(s2, l) := l_run (S n) s1 r in (s2, a :: l)
  end.
Definition l_after (h : list lop) : lst := fst (l_run 0 l_new h).
Definition l_answers (h : list lop) : list lans := snd (l_run 0 l_new h).

(** The children in the order in which init walks them: GGroup.cpp 16-27; GRegion.cpp 28-37 with GElementManager.cpp 33-37. *)
Definition init_kids (s : lst) (g : nat) : list nat := if l_region s g then fold_left (fun l e => set_add e l) (l_kids s g) [] else l_kids s g.
(** The elements on which the init of the pipeline calls init, in order, when nothing fails; [None]: it never ends. *)
Definition init_calls (fuel : nat) (s : lst) : option (list nat) := concat_opt (map (walk fuel (init_kids s)) (l_roots s)).
(** GElement::getDeepPath(true), GElement.cpp 582-596; [None]: longer than [fuel]. *)
Fixpoint deep_path (fuel : nat) (belong : nat -> option nat) (e : nat) : option (list nat) :=
  match fuel with
  | 0 => None
  | S f => match belong e with
           | None => Some [e]
           | Some g => match deep_path f belong g with Some l => Some (e :: l) | None => None end
           end
  end.
