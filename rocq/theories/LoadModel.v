(** GPipeline::load of any pipeline, with what it leaves there when it ends early: src/GraphCtrl/GraphPipeline/GPipeline.cpp 346-356, _GStroage/GStorage.cpp 128-151, 224-409.
    As StoreModel, which has the loading of a new pipeline and says nothing of the pipeline after an error; the elements, the objects and the bytes are those of StoreModel.
    [p_els] of a pipeline lists the elements that its element manager and its repository know ([e_reg], [e_repo]) and those that were created with them (they may be in a group).
    Simplified: what is created and attached to nothing (the elements of a first loop that stops early, the objects that an equal key replaces) is lost and not in the model.
    A set of pointers is walked in the order of the stored list (GElementPtrSet, GElementDefine.h). The exception of setUniqueThreadPoolConfig passes through load. *)
From Verif Require Export StoreModel.
Local Open Scope nat_scope.
Local Open Scope list_scope.

(** How a part of load ends, and the state after it. *)
Definition after (A : Type) : Type := (res unit * A)%type.
(** "CGRAPH_FUNCTION_CHECK_STATUS": go on if there is no error. *)
Definition and_then {A} (r : after A) (f : A -> after A) : after A := match r with (LOk _, a) => f a | r => r end.
(** A loop that stops at the first error. *)
Fixpoint until {A B} (f : A -> B -> after B) (l : list A) (b : B) : after B := match l with [] => (LOk tt, b) | x :: l => and_then (f x b) (until f l) end.
(** The longest beginning of a list all of whose members pass. *)
Fixpoint passed {A} (f : A -> bool) (l : list A) : list A := match l with [] => [] | x :: l => if f x then x :: passed f l else [] end.

Section L.
Variable reg : str -> option obj.

(** The stored element with the aspects and the parameters that loadAspect and loadEParam create before an unregistered class stops them, GStorage.cpp 379-409. *)
Definition created (t : st) : st :=
  mkSt (t_name t) (t_loop t) (t_sess t) (t_deps t) (t_vis t) (t_bind t) (t_level t) (t_tmo t) (t_strat t) (t_macro t) (t_cls t) (t_belong t) (t_type t) (t_kids t)
       (passed (is_aspect reg) (t_aspects t)) (passed (fun p => is_passed reg (snd p)) (t_locals t)).
(** loadElement, second loop, GStorage.cpp 267-279: both are tried, then the status is looked at. *)
Definition left2 (t : st) (h : list el) : after (list el) :=
  match find_el (t_sess t) h with
  | None => (LErr, h)
  | Some e =>
      let r : res unit := if forallb (is_aspect reg) (t_aspects t) && forallb (fun p => is_passed reg (snd p)) (t_locals t) then LOk tt else LErr in
      match t_belong t with
      | [] => match set_loop e (t_loop t) with None => (LThrow, h) | Some e' => (r, on (t_sess t) (fun _ => attach (created t) (e_belong e') true e') h) end
      | b => (r, on (t_sess t) (attach (created t) (match find_el b h with Some g => Some (e_sess g) | None => None end) false) h)
      end
  end.
(** addDependGElements, GElement.cpp 154-176: nothing if one of them does not exist; those before one of another group stay. *)
Definition left_deps (t : st) (e : el) (h : list el) : after (list el) :=
  if forallb (fun d => match find_el d h with Some _ => true | None => false end) (t_deps t)
  then let fit d := match find_el d h with Some x => same_group (e_belong x) (e_belong e) | None => false end in
       (if forallb fit (t_deps t) then LOk tt else LErr, on (t_sess t) (add_deps (passed fit (t_deps t))) h)
  else (LErr, h).
(** GGroup::addElement, GGroup.cpp 46-56; GSome::addElementEx, GSome.cpp 23-40, throws after the child was added. *)
Definition left_kid (g : str) (gty : N) (k : str) (h : list el) : after (list el) :=
  match add_element g gty k h with
  | LOk h' => (LOk tt, h')
  | LErr => (LErr, h) | LUndef => (LUndef, h)
  | LThrow => (LThrow, on k (in_group g) (on g (add_kid k) h))
  end.
(** third loop, GStorage.cpp 282-301 *)
Definition left3 (t : st) (h : list el) : after (list el) :=
  match find_el (t_sess t) h with
  | None => (LErr, h)
  | Some e => and_then (left_deps t e h) (fun h => match t_kids t with [] => (LOk tt, h) | ks => if is_group (e_type e) then until (left_kid (t_sess t) (e_type e)) ks h else (LErr, h) end)
  end.
(** loadElement, GStorage.cpp 247-304: the elements of a first loop that fails are attached to nothing. *)
Definition left_elements (l : list st) : after (list el) :=
  match each (load1 reg) l [] with
  | LOk h => and_then (until left2 l h) (until left3 l)
  | LErr => (LErr, []) | LThrow => (LThrow, []) | LUndef => (LUndef, [])
  end.
(** loadEvent, loadParam, loadDaemon, loadStage, GStorage.cpp 304-376: what is before an unregistered class is inserted. *)
Definition ends {A B} (f : A -> B -> res B) (x : A) (m : B) : after B := match f x m with LOk m' => (LOk tt, m') | LErr => (LErr, m) | LThrow => (LThrow, m) | LUndef => (LUndef, m) end.
(** The sum of four statuses, none of which is an exception. *)
Definition plus (a b : res unit) : res unit := match a with LOk _ => b | _ => a end.

Variable d2 : N * N.
(** loadBuffer, GStorage.cpp 224-244, and load; [p]: the pipeline before. *)
Definition load_onto (p : pl) (b : list N) : after pl :=
  if p_init p then (LErr, p) else
  match u_read ty_pl b (fresh ty_pl) with
  | None => (LUndef, p)
  | Some v =>
      let s := o_pl v in
      and_then (let (r, h) := left_elements (ps_els s) in (r, mkPl (p_init p) (p_els p ++ h) (p_events p) (p_params p) (p_daemons p) (p_stages p) (p_cfg p) (p_cfg2 p) (p_engine p) (p_shared p)))
        (fun p =>
           let (r1, evs) := until (ends (load_event reg)) (ps_events s) (p_events p) in
           let (r2, ps) := until (ends (load_param reg)) (ps_params s) (p_params p) in
           let (r3, ds) := until (ends (load_daemon reg)) (ps_daemons s) (p_daemons p) in
           let (r4, ss) := until (ends (load_stage reg)) (ps_stages s) (p_stages p) in
           and_then (plus r1 (plus r2 (plus r3 r4)), mkPl (p_init p) (p_els p) evs ps ds ss (p_cfg p) (p_cfg2 p) (p_engine p) (p_shared p))
             (fun p => if cfg_check (ps_cfg s) then (LOk tt, mkPl (p_init p) (p_els p) (p_events p) (p_params p) (p_daemons p) (p_stages p) (ps_cfg s) d2 (p_engine p) (p_shared p)) else (LThrow, p)))
  end.
(** load of a file: [None], it cannot be opened or read (GStorage.cpp 128-151). *)
Definition load_file (p : pl) (file : option (list N)) : after pl := match file with Some b => load_onto p b | None => (LErr, p) end.
End L.
