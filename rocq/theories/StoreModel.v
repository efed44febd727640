(** GPipeline::save and load: src/GraphCtrl/GraphPipeline/GPipeline.cpp 325-356, _GStroage/GStorage.cpp, GStorageDefine.h, GStorageFactory.cpp; the bytes are those of ReflModel.
    Objects (elements, events, ...) are created by the factory from the name of their class; data that user classes add is a number, 0 for a new object.
    Elements are named by their sessions. Numbers are given by their object representation, without sign.
    Simplified: children_ of a stored element holds complete copies of the children, of which load reads only session_: a vector of sessions here. A set of pointers (the repository) is a list in the order in
    which it is walked. What addManagers does for the children is left out. File operations succeed. *)
From Verif Require Export ReflModel.
From Coq Require Export NArith ZArith Lia Bool.
Local Open Scope nat_scope.
Local Open Scope list_scope.

Definition str : Type := list N.
Definition seqb (a b : str) : bool := if list_eq_dec N.eq_dec a b then true else false.

(** GElementType, GraphElement/GElementDefine.h 21-36; GElement.cpp 453-466 *)
Definition ty_node : N := 65536.
Definition ty_some : N := 131080.
Definition is_group (t : N) : bool := N.testbit t 17.
Definition is_adapter (t : N) : bool := N.testbit t 18.
(** CGRAPH_MAX_BLOCK_TTL (src/UtilsCtrl/ThreadPool/UThreadPoolDefine.h) and HOLD_BY_PIPELINE *)
Definition max_block_ttl : N := 1999999999.
Definition hold_by_pipeline : N := 1.

(** An element of a pipeline. *)
Record el := mkEl { e_sess : str; e_cls : str; e_type : N; e_name : str; e_loop : N; e_vis : bool; e_bind : N; e_level : N; e_tmo : N; e_strat : N; e_macro : bool;
  e_belong : option str;                    (* the group it is in *)
  e_deps : list str; e_kids : list str;
  e_aspects : list (str * nat);             (* class and data *)
  e_locals : list (str * (str * nat));      (* local_params_: key, class and data *)
  e_engine : nat;                           (* of a region: setGEngineType; 0 is the default, DYNAMIC *)
  e_reg : bool;                             (* in the pipeline's element manager *)
  e_repo : bool }.                          (* in the repository *)
(** A pipeline. *)
Record pl := mkPl { p_init : bool; p_els : list el; p_events : list (str * (str * nat)); p_params : list (str * (str * bool * nat));
  p_daemons : list (N * str * nat); p_stages : list (str * (N * str * nat));
  p_cfg : list N;                           (* the fields of the UThreadPoolConfig that are reflected, in the order of the table *)
  p_cfg2 : N * N;                           (* the two that are not: pipeline_wait_busy_epoch_, deliver_running_primary_thread_enable_ *)
  p_engine : nat;                           (* of the pipeline's manager *)
  p_shared : bool }.                        (* uses a pool from outside *)
Definition cfg_widths : list nat := [4; 4; 4; 4; 4; 4; 4; 4; 8; 8; 8; 8; 4; 4; 4; 4; 1; 1; 1].
(** UThreadPoolConfig::check, UThreadPoolConfig.h 43-59 *)
Definition s32 (n : N) : Z := if (n <? 2147483648)%N then Z.of_N n else (Z.of_N n - 4294967296)%Z.
Definition s64 (n : N) : Z := if (n <? 9223372036854775808)%N then Z.of_N n else (Z.of_N n - 18446744073709551616)%Z.
Definition cfg_check (c : list N) : bool :=
  let f k := s32 (nth k c 0%N) in
  negb (f 0%nat <? 0)%Z && negb (f 1%nat <? 0)%Z && negb (f 2%nat <? f 0%nat + f 1%nat)%Z && negb (negb (nth 18 c 0 =? 0)%N && (s64 (nth 10 c 0%N) <=? 0)%Z).

(** * What is stored: GStorageDefine.h *)
Record st := mkSt { t_name : str; t_loop : N; t_sess : str; t_deps : list str; t_vis : N; t_bind : N; t_level : N; t_tmo : N; t_strat : N; t_macro : N; t_cls : str; t_belong : str; t_type : N;
  t_kids : list str; t_aspects : list str; t_locals : list (str * str) }.
Record pst := mkPst { ps_els : list st; ps_events : list (str * str); ps_params : list (str * str); ps_daemons : list (N * str); ps_stages : list (str * (N * str)); ps_cfg : list N }.
Definition bit (b : bool) : N := if b then 1%N else 0%N.
Definition unbit (n : N) : bool := negb (n =? 0)%N.
(** _GElementStorage(GElementCPtr), GStorageDefine.h 106-133 *)
Definition store_el (e : el) : st :=
  mkSt (e_name e) (e_loop e) (e_sess e) (e_deps e) (bit (e_vis e)) (e_bind e) (e_level e) (e_tmo e) (e_strat e) (bit (e_macro e)) (e_cls e)
       (match e_belong e with Some g => g | None => [] end) (e_type e) (e_kids e) (map fst (e_aspects e)) (map (fun p => (fst p, fst (snd p))) (e_locals e)).
(** GStorage::buildPipelineStorage, GStorage.cpp 154-189. The constructor of _GParamStorage (GStorageDefine.h 65-74) does not set clz_name_. *)
Definition store (p : pl) : pst :=
  mkPst (map store_el (filter e_repo (p_els p))) (map (fun x => (fst x, fst (snd x))) (p_events p)) (map (fun x => (fst x, [])) (p_params p))
        (map fst (p_daemons p)) (map (fun x => (fst x, fst (snd x))) (p_stages p)) (p_cfg p).

(** * The tables of GStorage.cpp 20-98: types, and values of these types. backtrace_ is not in the table of _GParamStorage. *)
Fixpoint fields_of (i : N) (l : list ty) : ty := match l with [] => TUnit | t :: l => TField i t (fields_of (i + 1) l) end.
Definition two_strings : ty := fields_of 1 [TStr; TStr].
Definition ty_el : ty := fields_of 1 [TStr; TFix 8; TStr; TVec TStr; TFix 1; TFix 4; TFix 4; TFix 8; TFix 4; TFix 1; TStr; TStr; TFix 4; TVec TStr; TVec (fields_of 1 [TStr]); TVec two_strings].
Definition ty_pl : ty := fields_of 1 [TVec ty_el; TVec two_strings; TVec two_strings; TVec (fields_of 1 [TFix 8; TStr]); TVec (fields_of 1 [TStr; TFix 4; TStr]); fields_of 1 (map TFix cfg_widths)].

Fixpoint vfields (l : list value) : value := match l with [] => VUnit | v :: l => VField v (vfields l) end.
Definition vnum (k : nat) (n : N) : value := VFix (le k n).
Definition vlist {A} (f : A -> value) (l : list A) : value := VVec (map f l).
Definition v2 (p : str * str) : value := vfields [VStr (fst p); VStr (snd p)].
Definition v_el (t : st) : value :=
  vfields [VStr (t_name t); vnum 8 (t_loop t); VStr (t_sess t); vlist VStr (t_deps t); vnum 1 (t_vis t); vnum 4 (t_bind t); vnum 4 (t_level t); vnum 8 (t_tmo t); vnum 4 (t_strat t); vnum 1 (t_macro t);
           VStr (t_cls t); VStr (t_belong t); vnum 4 (t_type t); vlist VStr (t_kids t); vlist (fun c => vfields [VStr c]) (t_aspects t); vlist v2 (t_locals t)].
Fixpoint vcfg (w : list nat) (c : list N) : list value := match w, c with k :: w, n :: c => vnum k n :: vcfg w c | _, _ => [] end.
Definition v_pl (s : pst) : value :=
  vfields [vlist v_el (ps_els s); vlist v2 (ps_events s); vlist v2 (ps_params s); vlist (fun d => vfields [vnum 8 (fst d); VStr (snd d)]) (ps_daemons s);
           vlist (fun d => vfields [VStr (fst d); vnum 4 (fst (snd d)); VStr (snd (snd d))]) (ps_stages s); vfields (vcfg cfg_widths (ps_cfg s))].
(** Back: the members of the objects that were read. *)
Fixpoint ofields (v : value) : list value := match v with VField x y => x :: ofields y | _ => [] end.
Definition ostr (v : value) : str := match v with VStr s => s | _ => [] end.
Definition onum (v : value) : N := match v with VFix b => de b | _ => 0%N end.
Definition olist {A} (f : value -> A) (v : value) : list A := match v with VVec l => map f l | _ => [] end.
Definition at_ (k : nat) (v : value) : value := nth k (ofields v) VUnit.
Definition o2 (v : value) : str * str := (ostr (at_ 0 v), ostr (at_ 1 v)).
Definition o_el (v : value) : st :=
  mkSt (ostr (at_ 0 v)) (onum (at_ 1 v)) (ostr (at_ 2 v)) (olist ostr (at_ 3 v)) (onum (at_ 4 v)) (onum (at_ 5 v)) (onum (at_ 6 v)) (onum (at_ 7 v)) (onum (at_ 8 v)) (onum (at_ 9 v))
       (ostr (at_ 10 v)) (ostr (at_ 11 v)) (onum (at_ 12 v)) (olist ostr (at_ 13 v)) (olist (fun x => ostr (at_ 0 x)) (at_ 14 v)) (olist o2 (at_ 15 v)).
Definition o_pl (v : value) : pst :=
  mkPst (olist o_el (at_ 0 v)) (olist o2 (at_ 1 v)) (olist o2 (at_ 2 v)) (olist (fun x => (onum (at_ 0 x), ostr (at_ 1 x))) (at_ 3 v))
        (olist (fun x => (ostr (at_ 0 x), (onum (at_ 1 x), ostr (at_ 2 x)))) (at_ 4 v)) (map onum (ofields (at_ 5 v))).

(** * Results *)
Inductive res (A : Type) := LOk (a : A) | LErr | LThrow | LUndef.
Arguments LOk {A}. Arguments LErr {A}. Arguments LThrow {A}. Arguments LUndef {A}.
Definition bind {A B} (r : res A) (f : A -> res B) : res B := match r with LOk a => f a | LErr => LErr | LThrow => LThrow | LUndef => LUndef end.
Fixpoint each {A B} (f : A -> B -> res B) (l : list A) (b : B) : res B := match l with [] => LOk b | x :: l => bind (f x b) (each f l) end.

(** GPipeline::save, GPipeline.cpp 325-343; GStorage::save, saveBuffer, GStorage.cpp 109-119, 192-221 *)
Definition save (p : pl) : res (list N) :=
  if p_init p then LErr
  else if existsb (fun e => e_repo e && is_adapter (e_type e)) (p_els p) then LErr
  else let v := v_pl (store p) in match u_write ty_pl v (repeat 0%N (u_size ty_pl v)) with Some b => LOk b | None => LUndef end.

(** * Loading *)
(** GStorageFactory: what a class name creates, if it is registered; of a new element its type and its timeout. *)
Inductive obj := OElement (type tmo : N) | OEvent | OParam | ODaemon | OStage | OAspect | OPassed.
Section L.
Variable reg : str -> option obj.

(** GElement::setLoop, setTimeout, GElement.cpp 42-50, 80-90: [None] is an exception. *)
Definition set_loop (e : el) (n : N) : option el :=
  if (0 <? e_tmo e)%N && negb (n =? 1)%N then None
  else Some (mkEl (e_sess e) (e_cls e) (e_type e) (e_name e) n (e_vis e) (e_bind e) (e_level e) (e_tmo e) (e_strat e) (e_macro e) (e_belong e) (e_deps e) (e_kids e) (e_aspects e) (e_locals e) (e_engine e) (e_reg e) (e_repo e)).
Definition set_timeout (e : el) (t s : N) : option el :=
  if (1 <? e_loop e)%N && negb (t =? 0)%N then None
  else Some (mkEl (e_sess e) (e_cls e) (e_type e) (e_name e) (e_loop e) (e_vis e) (e_bind e) (e_level e) t s (e_macro e) (e_belong e) (e_deps e) (e_kids e) (e_aspects e) (e_locals e) (e_engine e) (e_reg e) (e_repo e)).
(** GElement::setName, GElement.cpp 34-39 *)
Definition name_of (name sess : str) : str := match name with [] => sess | _ => name end.
(** _GElementStorage::recover, GStorageDefine.h 140-155, on a new element of type [ty] and timeout [tmo] *)
Definition recover (t : st) (ty tmo : N) : option el :=
  match set_loop (mkEl [] (t_cls t) ty (name_of (t_name t) []) 1 true 0 0 tmo 0 false None [] [] [] [] 0 false false) (t_loop t) with
  | None => None
  | Some e =>
      match set_timeout (mkEl (e_sess e) (e_cls e) (e_type e) (e_name e) (e_loop e) (unbit (t_vis t)) (t_bind t) (t_level t) (e_tmo e) (e_strat e) (e_macro e) (e_belong e) (e_deps e) (e_kids e) (e_aspects e) (e_locals e) (e_engine e) (e_reg e) (e_repo e)) (t_tmo t) (t_strat t) with
      | None => None
      | Some e => Some (mkEl (t_sess t) (e_cls e) (e_type e) (e_name e) (e_loop e) (e_vis e) (e_bind e) (e_level e) (e_tmo e) (e_strat e) (if (ty =? ty_node)%N then unbit (t_macro t) else e_macro e)
                             (e_belong e) (e_deps e) (e_kids e) (e_aspects e) (e_locals e) (e_engine e) (e_reg e) (e_repo e))
      end
  end.
(** eleCache, GStorage.cpp 251, 263: by session *)
Definition cache_put (e : el) (h : list el) : list el := filter (fun x => negb (seqb (e_sess x) (e_sess e))) h ++ [e].
Definition find_el (s : str) (h : list el) : option el := find (fun e => seqb (e_sess e) s) h.
Definition on (s : str) (f : el -> el) (h : list el) : list el := map (fun e => if seqb (e_sess e) s then f e else e) h.
(** loadElement, first loop, GStorage.cpp 253-264 *)
Definition load1 (t : st) (h : list el) : res (list el) :=
  match reg (t_cls t) with
  | Some (OElement ty tmo) => if negb (ty =? t_type t)%N then LErr else match recover t ty tmo with Some e => LOk (cache_put e h) | None => LThrow end
  | _ => LErr
  end.
(** second loop, GStorage.cpp 267-279: innerRegister (GPipeline.cpp 379-396) for an element in no group; loadAspect 379-394, loadEParam 397-409 *)
Definition is_aspect (c : str) : bool := match reg c with Some OAspect => true | _ => false end.
Definition is_passed (c : str) : bool := match reg c with Some OPassed => true | _ => false end.
Definition attach (t : st) (b : option str) (top : bool) (e : el) : el :=
  mkEl (e_sess e) (e_cls e) (e_type e) (if top then name_of (match t_name t with [] => e_name e | n => n end) (e_sess e) else e_name e) (e_loop e) (e_vis e) (e_bind e) (e_level e) (e_tmo e) (e_strat e) (e_macro e)
       b (e_deps e) (e_kids e) (map (fun c => (c, 0)) (t_aspects t)) (map (fun p => (fst p, (snd p, 0))) (t_locals t)) (e_engine e) (if top then true else e_reg e) (if top then true else e_repo e).
Definition load2 (t : st) (h : list el) : res (list el) :=
  match find_el (t_sess t) h with
  | None => LErr
  | Some e =>
      let extras h := if forallb is_aspect (t_aspects t) && forallb (fun p => is_passed (snd p)) (t_locals t) then LOk h else LErr in
      match t_belong t with
      | [] => match set_loop e (t_loop t) with None => LThrow | Some e' => extras (on (t_sess t) (fun _ => attach t (e_belong e') true e') h) end
      | b => extras (on (t_sess t) (attach t (match find_el b h with Some g => Some (e_sess g) | None => None end) false) h)
      end
  end.
(** third loop, GStorage.cpp 282-301: addDependGElements (GElement.cpp 154-176), GGroup::addElement (GGroup.cpp 46-56), GSome::addElementEx (GSome.cpp 23-40) *)
Definition same_group (a b : option str) : bool := match a, b with None, None => true | Some x, Some y => seqb x y | _, _ => false end.
Definition add_deps (l : list str) (e : el) : el :=
  mkEl (e_sess e) (e_cls e) (e_type e) (e_name e) (e_loop e) (e_vis e) (e_bind e) (e_level e) (e_tmo e) (e_strat e) (e_macro e) (e_belong e)
       (e_deps e ++ filter (fun d => negb (seqb d (e_sess e)) && negb (existsb (seqb d) (e_deps e))) l) (e_kids e) (e_aspects e) (e_locals e) (e_engine e) (e_reg e) (e_repo e).
Definition add_kid (k : str) (e : el) : el :=
  mkEl (e_sess e) (e_cls e) (e_type e) (e_name e) (e_loop e) (e_vis e) (e_bind e) (e_level e) (e_tmo e) (e_strat e) (e_macro e) (e_belong e) (e_deps e) (e_kids e ++ [k]) (e_aspects e) (e_locals e) (e_engine e) (e_reg e) (e_repo e).
Definition in_group (g : str) (e : el) : el :=
  mkEl (e_sess e) (e_cls e) (e_type e) (e_name e) (e_loop e) (e_vis e) (e_bind e) (e_level e) (e_tmo e) (e_strat e) (e_macro e) (Some g) (e_deps e) (e_kids e) (e_aspects e) (e_locals e) (e_engine e) (e_reg e) (e_repo e).
Definition add_element (g : str) (gty : N) (k : str) (h : list el) : res (list el) :=
  match find_el k h with
  | None => LOk h                                                   (* addElement(nullptr): an error that is not looked at *)
  | Some c =>
      let h := on k (in_group g) (on g (add_kid k) h) in
      if (gty =? ty_some)%N && (e_tmo c =? 0)%N
      then match set_timeout c max_block_ttl hold_by_pipeline with None => LThrow | Some c' => LOk (on k (fun e => match set_timeout e max_block_ttl hold_by_pipeline with Some e' => e' | None => e end) h) end
      else LOk h
  end.
Definition load3 (t : st) (h : list el) : res (list el) :=
  match find_el (t_sess t) h with
  | None => LErr
  | Some e =>
      bind (if forallb (fun d => match find_el d h with Some x => same_group (e_belong x) (e_belong e) | None => false end) (t_deps t) then LOk (on (t_sess t) (add_deps (t_deps t)) h) else LErr)
           (fun h => match t_kids t with [] => LOk h | ks => if is_group (e_type e) then each (add_element (t_sess t) (e_type e)) ks h else LErr end)
  end.
Definition load_elements (l : list st) : res (list el) := bind (each load1 l []) (fun h => bind (each load2 l h) (each load3 l)).

(** loadEvent, loadParam, loadDaemon, loadStage, GStorage.cpp 304-376: maps by key *)
Definition kput {A} (k : str) (x : A) (m : list (str * A)) : list (str * A) := filter (fun p => negb (seqb (fst p) k)) m ++ [(k, x)].
Definition load_event (x : str * str) (m : list (str * (str * nat))) : res (list (str * (str * nat))) := match reg (snd x) with Some OEvent => LOk (kput (fst x) (snd x, 0) m) | _ => LErr end.
Definition load_param (x : str * str) (m : list (str * (str * bool * nat))) : res (list (str * (str * bool * nat))) := match reg (snd x) with Some OParam => LOk (kput (fst x) (snd x, false, 0) m) | _ => LErr end.
Definition load_daemon (x : N * str) (m : list (N * str * nat)) : res (list (N * str * nat)) := match reg (snd x) with Some ODaemon => LOk (m ++ [(fst x, snd x, 0)]) | _ => LErr end.
Definition load_stage (x : str * (N * str)) (m : list (str * (N * str * nat))) : res (list (str * (N * str * nat))) := match reg (snd (snd x)) with Some OStage => LOk (kput (fst x) (snd x, 0) m) | _ => LErr end.
(** A new pipeline; [d2]: the defaults of the two fields of the configuration that are not stored. *)
Variable d1 : list N.
Variable d2 : N * N.
Definition new_pipeline : pl := mkPl false [] [] [] [] [] d1 d2 0 false.
(** GPipeline::load of a new pipeline, GPipeline.cpp 346-356; GStorage::load 128-151, loadBuffer 224-244; setUniqueThreadPoolConfig, GPipeline.cpp 238-252 *)
Definition load (b : list N) : res pl :=
  match u_read ty_pl b (fresh ty_pl) with
  | None => LUndef
  | Some v =>
      let s := o_pl v in
      bind (load_elements (ps_els s)) (fun h =>
      bind (each load_event (ps_events s) []) (fun evs =>
      bind (each load_param (ps_params s) []) (fun ps =>
      bind (each load_daemon (ps_daemons s) []) (fun ds =>
      bind (each load_stage (ps_stages s) []) (fun ss =>
      if cfg_check (ps_cfg s) then LOk (mkPl false h evs ps ds ss (ps_cfg s) d2 0 false) else LThrow)))))
  end.
End L.
