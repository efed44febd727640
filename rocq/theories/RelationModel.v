(** What an element says about its surroundings: GElement::getRelation, src/GraphCtrl/GraphElement/GElement.cpp 503-511, GElementRelation.h 20-26, while the pipeline
    is being put together: elements are made, grouped and registered (PlaceModel.v), dependencies are added (addDependGElements, GElement.cpp 154-175) and removed
    (removeDepend, GElement.cpp 489-500, called by trim). A registration with dependencies adds them first (GPipeline.cpp 379-396, GElement.cpp 177-190): two calls here.
    Simplified: before init; pointers are not null; no group is a GMutable. An element is named by the number of the call that made it, not counting the calls on dependencies. *)
From Verif Require Export GraphModel PlaceModel.
Local Open Scope nat_scope.
Local Open Scope list_scope.

(** The number of calls that may make an element so far; the fields for dependencies (GElement.h 419-461); the places *)
Record rst := mkRS { r_n : nat; r_g : gst; r_l : lst }.
Definition rel_new : rst := mkRS 0 (fun _ => mkElem None [] [] 0%Z false false) l_new.
Inductive rop :=
| RPlace (o : lop)
| RDepend (e : nat) (on : list nat)    (* e->addDependGElements(on); the order is that of the set of pointers *)
| RRemove (e d : nat).                 (* e->removeDepend(d) *)
Inductive rans := ROk | RRefused | RBad.
(** belong_ is one field of the element, GElement.h 423; here it is in both parts *)
Definition with_belong (g : gst) (b : nat -> option nat) : gst :=
  fun e => mkElem (b e) (e_dep (g e)) (e_succ (g e)) (e_left (g e)) (e_init (g e)) (e_mut (g e)).
Definition place_ans (a : lans) : rans := match a with LOk => ROk | LRefused => RRefused | _ => RBad end.
Definition rel_step (s : rst) (o : rop) : rst * rans :=
  match o with
  | RPlace p => let '(l, a) := l_step (r_n s) (r_l s) p in (mkRS (S (r_n s)) (with_belong (r_g s) (l_belong l)) l, place_ans a)
  | RDepend e on =>
      if exist (r_l s) (e :: on) then
        let '(g, ok) := addDepend (r_g s) e (map Some on) in (mkRS (r_n s) g (r_l s), if ok then ROk else RRefused)
      else (s, RBad)
  | RRemove e d =>
      if exist (r_l s) [e; d] then
        let '(g, ok) := removeDepend (r_g s) e (Some d) in (mkRS (r_n s) g (r_l s), if ok then ROk else RRefused)
      else (s, RBad)
  end.
Fixpoint rel_run (s : rst) (h : list rop) : rst * list rans :=
  match h with [] => (s, []) | o :: r => let '(s1, a) := rel_step s o in let '(s2, l) := rel_run s1 r in (s2, a :: l) end.
Definition rel_after (h : list rop) : rst := fst (rel_run rel_new h).
Definition rel_answers (h : list rop) : list rans := snd (rel_run rel_new h).

(** GElementRelation, GElementRelation.h 20-26 *)
Record relation := mkRel { predecessors : list nat; successors : list nat; children : list nat; belong : option nat }.
(** GElement::getRelation, GElement.cpp 503-511 *)
Definition getRelation (s : rst) (e : nat) : relation := mkRel (e_dep (r_g s e)) (e_succ (r_g s e)) (l_kids (r_l s) e) (e_belong (r_g s e)).
