(** The order in which elements are initialised and destroyed: GElementSorter (src/GraphCtrl/GraphElement/GElementSorter.h
    18-32), the set manager_elements_ of an element manager (GElementManager.h 102, GElementManager.cpp 23-71), which the
    pipeline and every region have, the vector children_ of the other groups (GGroup.cpp 15-57), and setLevel
    (GElement.cpp 53-58). *)
From Verif Require Export PipeModel.
From Coq Require Import ZArith.
Local Open Scope nat_scope.
Local Open Scope list_scope.

(** What a user does before init. createGNode (GPipeline.inl 117-137); createGGroup with its elements (149-176), [true]
    for a region; setLevel; registerGNode / registerGGroup of an element made before, or, right after the creation, the
    registerGElement that makes the element itself (all of them end in innerRegister, GPipeline.cpp 379-396). *)
Inductive lop := LNode (e : nat) | LGroup (region : bool) (e : nat) (cs : list nat) | LLevel (e : nat) (z : Z) | LRegister (e : nat).

(** Elements are numbered by their addresses. [free]: made, not registered and in no group; [top]: the pipeline's
    manager_elements_ in the order of iteration; [lev]: level_ of the elements (GElement.h 451: 0 at first). The order of
    [elt]'s children is that of children_, for a region that of its manager's manager_elements_. *)
Record lst := mkL { l_free : list elt; l_top : list elt; l_lev : nat -> Z }.
Definition l_start : lst := mkL [] [] (fun _ => 0%Z).
(** [LUndef]: undefined behaviour. [LBad]: the program uses an element which is not there, or twice; not modelled. *)
Inductive lout := LDone (s : lst) | LUndef | LBad.

(** GElementSorter::operator(), GElementSorter.h 27-29. *)
Definition less (lev : nat -> Z) (a b : nat) : bool := if (lev a =? lev b)%Z then a <? b else (lev a <? lev b)%Z.
(** What std::set asks of its elements at every search: each is less than the next under the sorter, now. *)
Fixpoint in_order (lev : nat -> Z) (l : list elt) : bool :=
  match l with
  | [] => true
  | a :: r => match r with [] => true | b :: _ => less lev (eid a) (eid b) end && in_order lev r
  end.
Fixpoint place (lev : nat -> Z) (t : elt) (l : list elt) : list elt :=
  match l with
  | [] => [t]
  | u :: r => if less lev (eid t) (eid u) then t :: l else if less lev (eid u) (eid t) then u :: place lev t r else l
  end.
(** manager_elements_.emplace, GElementManager.cpp 69, GRegion.cpp 64. The search relies on the order of what is there;
    when the order has been destroyed by a change of the keys, the result is undefined. *)
Definition emplace (lev : nat -> Z) (t : elt) (l : list elt) : option (list elt) :=
  if in_order lev l then Some (place lev t l) else None.
Fixpoint emplace_all (lev : nat -> Z) (ts : list elt) (l : list elt) : option (list elt) :=
  match ts with [] => Some l | t :: r => match emplace lev t l with Some l' => emplace_all lev r l' | None => None end end.

Fixpoint take (e : nat) (l : list elt) : option (elt * list elt) :=
  match l with
  | [] => None
  | t :: r => if eid t =? e then Some (t, r) else match take e r with Some (u, r') => Some (u, t :: r') | None => None end
  end.
Fixpoint take_all (es : list nat) (l : list elt) : option (list elt * list elt) :=
  match es with
  | [] => Some ([], l)
  | e :: r => match take e l with
              | Some (t, l') => match take_all r l' with Some (ts, l'') => Some (t :: ts, l'') | None => None end
              | None => None
              end
  end.
Definition used (e : nat) (s : lst) : bool := memb e (flat_map ids (l_free s ++ l_top s)).

Definition lstep (s : lst) (o : lop) : lout :=
  match o with
  | LNode e => if used e s then LBad else LDone (mkL (Node e :: l_free s) (l_top s) (l_lev s))
  | LGroup region e cs =>
      if used e s then LBad
      else match take_all cs (l_free s) with
           | None => LBad
           | Some (ts, fr) =>
               (* GGroup::addElement of each, GGroup.cpp 46-57, with GRegion::addElementEx, GRegion.cpp 60-66 *)
               if region then match emplace_all (l_lev s) ts [] with
                              | Some l => LDone (mkL (Region e l :: fr) (l_top s) (l_lev s))
                              | None => LUndef
                              end
               else LDone (mkL (Plain e ts :: fr) (l_top s) (l_lev s))
           end
  | LLevel e z => if used e s then LDone (mkL (l_free s) (l_top s) (upd (l_lev s) e z)) else LBad
  | LRegister e =>
      match take e (l_free s) with
      | None => LBad
      | Some (t, fr) => match emplace (l_lev s) t (l_top s) with
                        | Some l => LDone (mkL fr l (l_lev s))
                        | None => LUndef
                        end
      end
  end.
Fixpoint lrun (s : lst) (p : list lop) : lout :=
  match p with
  | [] => LDone s
  | o :: r => match lstep s o with LDone s' => lrun s' r | x => x end
  end.
