(** Settings of elements and the flag is_init_: the setters of GElement (src/GraphCtrl/GraphElement/GElement.cpp 30-176, 489-500,
    GElement.inl 19-63), GFunction::setFunction (GAdapter/GFunction/GFunction.cpp 13-26), GNode::spawn (GNode/GNode.cpp 25-32),
    called at any time between the calls on the pipeline (PipeModel.v). The flags do not change while the pipeline runs, so a
    call made by an element during run() is answered as one made just before it. *)
From Verif Require Export PipeModel.
Local Open Scope nat_scope.
Local Open Scope list_scope.

(** The settings of one element (GElement.h 440-465; GFunction.h 40-43). Names, aspects, parameters and functions are numbers.
    Dependences are those of GraphModel.v; here only the element's own set. *)
Record conf := mkConf { k_name : nat; k_loop : N; k_level : Z; k_visible : bool; k_bind : Z; k_timeout : Z; k_hold : bool; k_macro : bool;
  k_deps : list nat; k_eparams : list (nat * nat); k_aspects : list nat; k_funs : list (nat * nat) }.
(** Default values, GElement.h 443-457. *)
Definition conf0 : conf := mkConf 0 1 0 true (-1) 0 false false [] [] [] [].
(** The calls that change settings. [SDepend]: addDependGElements with elements that sit beside this one (others are refused,
    GraphModel.v). [SFun]: setFunction of a GFunction, type and function. The empty name and null pointers are left out. *)
Inductive scall :=
| SName (n : nat) | SLoop (n : N) | SLevel (z : Z) | SVisible (b : bool) | SBind (z : Z) | STimeout (t : Z) (hold : bool) | SMacro (b : bool)
| SDepend (ds : list nat) | SRemove (d : nat) | SEParam (k v : nat) | SAspect (a : nat) | SFun (ty f : nat).
Definition thrown_init : out status := Thrown "[CException] init status is not suitable".
Definition thrown_mutable : out status := Thrown "[CException] mutable init status is not suitable".
Definition fine : out status := Val st_default.
Fixpoint put (k v : nat) (m : list (nat * nat)) : list (nat * nat) :=
  match m with [] => [(k, v)] | (k0, v0) :: r => if k0 =? k then (k, v) :: r else (k0, v0) :: put k v r end.
(** One call. [init]: is_init_; [mut]: isMutable (GElement.cpp 334-337); [grp]: isGGroup; [e]: the element itself.
    A refused call changes nothing. *)
Definition set_call (e : nat) (init mut grp : bool) (k : conf) (c : scall) : conf * out status :=
  let '(mkConf nm lp lv vi bi ti ho ma de ep asp fu) := k in
  match c with
  | SName n => if init then (k, thrown_init) else (mkConf n lp lv vi bi ti ho ma de ep asp fu, fine)                     (* GElement.cpp 35-39 *)
  | SLoop n =>                                                                                                             (* GElement.cpp 42-50 *)
      if init && negb mut then (k, thrown_mutable)
      else if (0 <? ti)%Z && negb (n =? 1)%N then (k, Thrown "cannot set loop value when timeout is bigger than 0")
      else (mkConf nm n lv vi bi ti ho ma de ep asp fu, fine)
  | SLevel z => if init then (k, thrown_init) else (mkConf nm lp z vi bi ti ho ma de ep asp fu, fine)                    (* GElement.cpp 53-58 *)
  | SVisible b => if init && negb mut then (k, thrown_mutable) else (mkConf nm lp lv b bi ti ho ma de ep asp fu, fine)   (* GElement.cpp 61-66 *)
  | SBind z => if init then (k, thrown_init) else (mkConf nm lp lv vi z ti ho ma de ep asp fu, fine)                     (* GElement.cpp 69-77 *)
  | STimeout t h =>                                                                                                        (* GElement.cpp 80-90 *)
      if init then (k, thrown_init)
      else if (t <? 0)%Z then (k, Thrown "timeout value cannot smaller than 0")
      else if (1 <? lp)%N && negb (t =? 0)%Z then (k, Thrown "cannot set timeout value when loop bigger than 1")
      else (mkConf nm lp lv vi bi t h ma de ep asp fu, fine)
  | SMacro b =>                                                                                                            (* GElement.cpp 93-100 *)
      if init then (k, thrown_init) else if grp then (k, Thrown "cannot set group as macro")
      else (mkConf nm lp lv vi bi ti ho b de ep asp fu, fine)
  | SDepend ds =>                                                                                                          (* GElement.cpp 154-174 *)
      if negb mut && init then (k, Val not_suitable)
      else (mkConf nm lp lv vi bi ti ho ma (de ++ filter (fun d => negb (d =? e) && negb (memb d de)) ds) ep asp fu, fine)
  | SRemove d =>                                                                                                           (* GElement.cpp 489-500 *)
      if init then (k, Val not_suitable)
      else if memb d de then (mkConf nm lp lv vi bi ti ho ma (filter (fun x => negb (x =? d)) de) ep asp fu, fine)
      else (k, Val (st_err "is not in the depends"))
  | SEParam x v => if init then (k, thrown_init) else (mkConf nm lp lv vi bi ti ho ma de (put x v ep) asp fu, fine)      (* GElement.inl 48-63 *)
  | SAspect a => (mkConf nm lp lv vi bi ti ho ma de ep (asp ++ [a]) fu, fine)                                            (* GElement.inl 19-45: no check *)
  | SFun ty f => if init then (k, thrown_init) else (mkConf nm lp lv vi bi ti ho ma de ep asp (put ty f fu), fine)       (* GFunction.cpp 13-26 *)
  end.

(** A pipeline together with the settings of its elements. *)
Record lpipe := mkL { l_p : pipe; l_conf : nat -> conf }.
(** All elements of a tree. *)
Fixpoint subs (t : elt) : list elt := match t with Node _ => [t] | Plain _ cs | Region _ cs => t :: flat_map subs cs end.
(** isGGroup, GElement.cpp 453-456 and isMutable, 334-337: the owner is a GMutable; [mg] tells which groups are. *)
Definition is_group (cs : list elt) (e : nat) : bool :=
  existsb (fun t => match t with Node _ => false | _ => eid t =? e end) (flat_map subs cs).
Definition is_mut (mg : nat -> bool) (cs : list elt) (e : nat) : bool :=
  existsb (fun t => match t with Plain g ds => mg g && existsb (fun d => eid d =? e) ds | _ => false end) (flat_map subs cs).
(** [LSpawn e r]: GNode::spawn, GNode.cpp 25-32, with [r] what the thread pool returns for the tasks; the pool is set by
    initEnv (GPipeline.cpp 363-366), so it is there whenever is_init_ is. *)
Inductive lop := LPipe (o : pop) | LSet (e : nat) (c : scall) | LSpawn (e : nat) (r : status).
Section Lock.
Variable ask : pask.
Variable mg : nat -> bool.
Definition lstep (s : lpipe) (o : lop) : lpipe * out status :=
  match o with
  | LPipe o => let '(p, v) := pipe_step ask (l_p s) o in (mkL p (l_conf s), v)
  | LSet e c =>
      let cs := c_elems (pp_cfg (l_p s)) in
      let '(k, v) := set_call e (pp_flag (l_p s) e) (is_mut mg cs e) (is_group cs e) (l_conf s e) c in
      (mkL (l_p s) (upd (l_conf s) e k), v)
  | LSpawn e r => (s, if pp_flag (l_p s) e then Val r else Val not_suitable)
  end.
Fixpoint lrun (s : lpipe) (h : list lop) : lpipe * list (out status) :=
  match h with [] => (s, []) | o :: r => let '(s1, v) := lstep s o in let '(s2, vs) := lrun s1 r in (s2, v :: vs) end.
End Lock.
