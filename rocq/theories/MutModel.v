(** GMutable: a group whose dependencies are set anew before every execution
    (src/GraphCtrl/GraphElement/GGroup/GMutable/GMutable.cpp). *)
From Verif Require Export FastModel.
Local Open Scope nat_scope.

(** What the engine of the group's manager keeps from its last successful setup(): total_element_arr_,
    front_element_arr_, dag_type_ (GDynamicEngine.h 104-114). The shapes of the elements are not kept here: they are only
    used on the common path, see [MXCommon]. *)
Record eng := mkEng { en_els : list nat; en_fronts : list nat; en_type : dag_type }.
Record mst := mkM {
  m_g : gst;              (* edges, parents and flags of all the elements *)
  m_vis : nat -> bool;    (* visible_ *)
  m_loop : nat -> nat;    (* loop_ *)
  m_tmo : nat -> bool;    (* timeout_ > 0 *)
  m_eng : eng;
  m_status : status       (* cur_status_ of the engine *)
}.
Definition with_g (s : mst) (g : gst) : mst := mkM g (m_vis s) (m_loop s) (m_tmo s) (m_eng s) (m_status s).
Definition with_vis (s : mst) (v : nat -> bool) : mst := mkM (m_g s) v (m_loop s) (m_tmo s) (m_eng s) (m_status s).
Definition with_loop (s : mst) (n : nat -> nat) : mst := mkM (m_g s) (m_vis s) n (m_tmo s) (m_eng s) (m_status s).
Definition with_eng (s : mst) (e : eng) : mst := mkM (m_g s) (m_vis s) (m_loop s) (m_tmo s) e (m_status s).

(** GMutable::init, GMutable.cpp 26-34: a new engine is set up with manager_elements_, which is empty for a GMutable
    (addElement fills children_, GGroup.cpp 45-56), so the type is ALL_SERIAL and there is no front element. *)
Definition eng_init : eng := mkEng [] [] AllSerial.

(** GMutable::setup, GMutable.cpp 79-86. setLoop(1) and setVisible never throw for a child of a GMutable
    (GElement.cpp 42-50 and 60-65: isMutable() holds, 1 is the default loop). *)
Definition mut_setup1 (s : mst) (e : nat) : mst :=
  mkM (upd (m_g s) e (set_dep (set_succ (m_g s e) []) [])) (upd (m_vis s) e false) (upd (m_loop s) e 1) (m_tmo s) (m_eng s) (m_status s).
Definition mut_setup (s : mst) (ks : list nat) : mst := fold_left mut_setup1 ks s.

(** What a user's reshape() can do with the elements it is given: link two of them ( *a > b, (a-- > b), a & b),
    change the visibility, change the loop. *)
Inductive rop :=
| RLink (a : nat) (b : option nat)
| RShow (a : nat) (v : bool)
| RTimes (a : nat) (n : nat).

(** CGRAPH_ASSERT_MUTABLE_INIT_THROW_ERROR(false), UtilsDefine.h 113-115: true when it throws. *)
Definition locked (s : mst) (e : nat) : bool := e_init (m_g s e) && negb (e_mut (m_g s e)).
(** [None]: a CException leaves reshape().
    RLink: GElement::operator>, GElement.cpp 114-124, and operator&, 127-129. operator-- before it (103-111) sets the
    visibility of [a] as well, which operator> does anyway. RShow: setVisible, 60-65. RTimes: operator*, 132-140, which
    swallows the exception of setLoop, 42-50. *)
Definition rop_step (s : mst) (o : rop) : option mst :=
  match o with
  | RLink a None => None
  | RLink a (Some b) =>
      if locked s a then None
      else match addDepend (m_g s) b [Some a] with
           | (_, false) => None
           | (g', true) => let s1 := with_g s g' in if locked s1 b then None else Some (with_vis s1 (upd (upd (m_vis s1) a true) b true))
           end
  | RShow a v => if locked s a then None else Some (with_vis s (upd (m_vis s) a v))
  | RTimes a n => if locked s a || (m_tmo s a && negb (Nat.eqb n 1)) then Some s else Some (with_loop s (upd (m_loop s) a n))
  end.
Fixpoint reshape (s : mst) (ops : list rop) : option mst :=
  match ops with
  | [] => Some s
  | o :: r => match rop_step s o with Some s' => reshape s' r | None => None end
  end.

Definition err_dag : status := st_err "it is not a dag struct".
(** GDynamicEngine::setup, GDynamicEngine.cpp 13-27, with mark 66-81 and analysisDagType 84-99. The exceptions of
    analysisParallelMatrix need a pool without threads and are left out. Without a decision of isDag (never the case, C03)
    nothing changes. *)
Definition eng_setup (bind : nat -> Z) (s : mst) (ks : list nat) : mst * status :=
  let g := graph_of (m_g s) ks in
  match isDag g with
  | Some true => (with_eng s (mkEng ks (fronts g) (analysis_dag_type g bind)), st_default)
  | _ => (s, err_dag)
  end.

(** GMutable::run, GMutable.cpp 37-51, up to the run() of the engine inside GElementManager::process
    (GElementManager.cpp 177-185, which calls run() whatever setup() returned).
    [ks]: children_ as the sorted set given to process; [ops], [r]: what reshape() does and returns. *)
Inductive mres :=
| MThrow                              (* exception of reshape(), or of CHECK_STATUS for a crash status *)
| MReturn (r : status)                (* reshape() returned an error *)
| MEngine (s : mst) (r : status).     (* engine run follows in state s; r: status of the engine's setup *)
Definition mut_run (bind : nat -> Z) (s : mst) (ks : list nat) (ops : list rop) (r : status) : mres :=
  match reshape (mut_setup s ks) ops with
  | None => MThrow
  | Some s1 =>
      match check_status r with
      | ThrowExc _ => MThrow
      | ReturnStatus r => MReturn r
      | Continue => let '(s2, r2) := eng_setup bind s1 ks in MEngine s2 (st_plus st_default r2)
      end
  end.

(** GElement::fatProcessor(RUN), GElement.cpp 221-272, of a child: nothing when it is not visible, otherwise up to loop_
    bodies while the status is OK. [res i]: what body i returns. Aspects, prepareRun, asynchronous execution, suspension
    and hold are left out (ElemModel has them). Result: number of bodies, status. *)
Fixpoint bodies_loop (n : nat) (res : nat -> status) (i : nat) (st : status) : nat * status :=
  match n with
  | O => (0, st)
  | S n => if isOK st then let '(k, st') := bodies_loop n res (S i) (st_plus st (res i)) in (S k, st') else (0, st)
  end.
Definition child_run (s : mst) (res : nat -> nat -> status) (e : nat) : nat * status :=
  if m_vis s e then bodies_loop (m_loop s e) (res e) 0 st_default else (0, st_default).

(** serialRunAll, GDynamicEngine.cpp 291-304, from the front element kept by the engine, along the edges of the elements
    as they are now; at most [fuel] elements ([None]: not finished then). *)
Definition serial_from (fuel : nat) (s : mst) (ks : list nat) (res : nat -> status) : option (list gevent * status) :=
  match en_fronts (m_eng s) with
  | [] => Some ([], prepare_status (m_status s))
  | f :: _ => serial_loop fuel (graph_of (m_g s) ks) res f (prepare_status (m_status s))
  end.

(** Complete runs of the engine, GDynamicEngine.cpp 30-48: trace and returned status. In the parallel and the common case
    one call of run() by the transition systems of FastModel and DynModel; the pool is idle when it starts. On the common
    path only engines whose last setup() succeeded are covered ([ok]). *)
Inductive mut_exec (bind : nat -> Z) (s : mst) (ks : list nat) (ok : bool) (res : nat -> nat -> status) : list gevent -> status -> Prop :=
| MXSerial fuel tr st :
    en_type (m_eng s) = AllSerial -> serial_from fuel s ks (fun e => snd (child_run s res e)) = Some (tr, st) ->
    mut_exec bind s ks ok res tr st
| MXParallel c ls p st :
    en_type (m_eng s) = AllParallel -> p_els c = en_els (m_eng s) -> concat (p_rows c) = en_els (m_eng s) ->
    ~ In LRun ls -> prun c p_init (LRun :: ls) = Some p -> p_out p = Some st ->
    (forall e r, In (GFinish e r) (p_tr p) -> r = snd (child_run s res e)) ->
    mut_exec bind s ks ok res (p_tr p) st
| MXCommon c ls d st :
    en_type (m_eng s) = Common -> ok = true -> c_g c = graph_of (m_g s) ks -> c_bind c = bind ->
    ~ In LRun ls -> drun c (d_init c) (LRun :: ls) = Some d -> d_out d = Some st ->
    (forall e r, In (GFinish e r) (sh_tr (d_sh d)) -> r = snd (child_run s res e)) ->
    mut_exec bind s ks ok res (sh_tr (d_sh d)) st.

(** Status that GMutable::run returns when the engine's run returned [st]. *)
Definition mut_status (setup st : status) : status := st_plus setup st.
(** How often the body of [x] ran. *)
Fixpoint body_count (s : mst) (res : nat -> nat -> status) (tr : list gevent) (x : nat) : nat :=
  match tr with
  | [] => 0
  | GStart e :: r => (if Nat.eqb e x then fst (child_run s res e) else 0) + body_count s res r x
  | _ :: r => body_count s res r x
  end.
