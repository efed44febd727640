(** Element dependency graph, its mutation, topological/layer analysis, and the sequential engines.

    Elements are identified by natural numbers (their address in C++). A [GSortedGElementPtrSet]
    (src/GraphCtrl/GraphElement/GElementSorter.h 20-37) is modelled by the list of its elements in iteration
    order; theorems never assume anything about that order. *)

From Verif Require Export StatusModel ListUtil.
Local Open Scope nat_scope.

(** * Dependency mutation: per element record *)

(** The fields of GElement used by the dependency functions.
    src/GraphCtrl/GraphElement/GElement.h 419-461 (belong_, dependence_, run_before_, left_depend_, is_init_).
    [e_mut] is the value of isMutable() (GElement.cpp 334-343: the parent is a GMutable);
    the remaining fields do not influence dependencies. [left_depend_] is an unsigned atomic counter; it is
    modelled by Z so that a decrement below zero stays different from zero, as it does in C++ (wrap around). *)
Record elem := mkElem {
  e_belong : option nat;
  e_dep : list nat;
  e_succ : list nat;
  e_left : Z;
  e_init : bool;
  e_mut : bool
}.
Definition gst := nat -> elem.

(** USmallVector::insert with isUnique=true, src/UtilsCtrl/Container/USmallVector.h 38-57 (see SmallVecModel for the array). *)
Definition ins (l : list nat) (x : nat) : list nat := if memb x l then l else l ++ [x].
(** USmallVector::remove, src/UtilsCtrl/Container/USmallVector.h 73-86: removes the first occurrence. *)
Fixpoint rem (l : list nat) (x : nat) : list nat :=
  match l with [] => [] | y :: r => if Nat.eqb y x then r else y :: rem r x end.

Definition set_dep (e : elem) (d : list nat) := mkElem (e_belong e) d (e_succ e) (e_left e) (e_init e) (e_mut e).
Definition set_succ (e : elem) (d : list nat) := mkElem (e_belong e) (e_dep e) d (e_left e) (e_init e) (e_mut e).
Definition set_left (e : elem) (n : Z) := mkElem (e_belong e) (e_dep e) (e_succ e) n (e_init e) (e_mut e).

Definition obelong_eqb (a b : option nat) : bool :=
  match a, b with Some x, Some y => Nat.eqb x y | None, None => true | _, _ => false end.

(** Loop body of GElement::addDependGElements, GElement.cpp 161-171. [None] in the list is a null pointer.
    The boolean tells whether the loop ran to its end (false: it returned an error half way). *)
Fixpoint addDepend_loop (st : gst) (this : nat) (l : list (option nat)) : gst * bool :=
  match l with
  | [] => (st, true)
  | None :: _ => (st, false)
  | Some d :: r =>
      if negb (obelong_eqb (e_belong (st d)) (e_belong (st this))) then (st, false)
      else if Nat.eqb this d then addDepend_loop st this r
      else
        let st1 := upd st d (set_succ (st d) (ins (e_succ (st d)) this)) in
        let st2 := upd st1 this (set_dep (st1 this) (ins (e_dep (st1 this)) d)) in
        addDepend_loop st2 this r
  end.

(** GElement::addDependGElements, GElement.cpp 154-175. *)
Definition addDepend (st : gst) (this : nat) (l : list (option nat)) : gst * bool :=
  if negb (e_mut (st this)) && e_init (st this) then (st, false)
  else
    let '(st', ok) := addDepend_loop st this l in
    if ok then (upd st' this (set_left (st' this) (Z.of_nat (length (e_dep (st' this))))), true)
    else (st', false).

(** GElement::removeDepend, GElement.cpp 489-500. *)
Definition removeDepend (st : gst) (this : nat) (el : option nat) : gst * bool :=
  match el with
  | None => (st, false)
  | Some d =>
      if e_init (st this) then (st, false)
      else if negb (memb d (e_dep (st this))) then (st, false)
      else
        let st1 := upd st this (set_dep (st this) (rem (e_dep (st this)) d)) in
        let st2 := upd st1 d (set_succ (st1 d) (rem (e_succ (st1 d)) this)) in
        (upd st2 this (set_left (st2 this) (Z.of_nat (length (e_dep (st2 this))))), true)
  end.

(** GGroup::addElement, src/GraphCtrl/GraphElement/GGroup/GGroup.cpp 45-56: only the parent changes
    (isMutable() of the child becomes [m], the kind of the new parent). No check on existing edges. *)
Definition groupElement (st : gst) (e group : nat) (m : bool) : gst :=
  upd st e (mkElem (Some group) (e_dep (st e)) (e_succ (st e)) (e_left (st e)) (e_init (st e)) m).
(** Setting is_init_: GElementManager::init/destroy (GElementManager.cpp 23-54), GGroup::init/destroy. *)
Definition setInit (st : gst) (e : nat) (b : bool) : gst :=
  upd st e (mkElem (e_belong (st e)) (e_dep (st e)) (e_succ (st e)) (e_left (st e)) b (e_mut (st e))).

(** A history of operations touching dependencies. *)
Inductive dep_op :=
| OAdd (this : nat) (l : list (option nat))
| ORemove (this : nat) (d : option nat)
| OGroup (e group : nat) (m : bool)
| OInit (e : nat) (b : bool).
Definition dep_step (st : gst) (o : dep_op) : gst :=
  match o with
  | OAdd t l => fst (addDepend st t l)
  | ORemove t d => fst (removeDepend st t d)
  | OGroup e g m => groupElement st e g m
  | OInit e b => setInit st e b
  end.
Definition dep_run (st : gst) (h : list dep_op) : gst := fold_left dep_step h st.

(** Initial state: elements exist with any parent and flags but without edges (GElement.h 441-442). *)
Definition no_edges (st : gst) : Prop := forall e, e_dep (st e) = [] /\ e_succ (st e) = [].

(** * Engines: analysis *)

(** A set of elements handed to an engine: iteration order and the two edge lists. *)
Record graph := mkGraph {
  els : list nat;
  dep : nat -> list nat;
  succ : nat -> list nat;
}.
Definition graph_of (st : gst) (l : list nat) : graph :=
  mkGraph l (fun e => e_dep (st e)) (fun e => e_succ (st e)).

Definition counters := nat -> Z.
(** The initial value of left_depend_: GEngine.h 77, GElement::refresh GElement.cpp 25-28. *)
Definition left0 (g : graph) : counters := fun e => Z.of_nat (length (dep g e)).

(** Inner loop over run_before_: GEngine.h 88-92 and GStaticEngine.cpp 32-37. Decrements each successor and
    returns the ones whose counter became zero, in order. *)
Fixpoint dec_all (left : counters) (l : list nat) : counters * list nat :=
  match l with
  | [] => (left, [])
  | x :: r =>
      let left1 := upd left x (left x - 1)%Z in
      let '(left2, ready) := dec_all left1 r in
      (left2, if (left x - 1 =? 0)%Z then x :: ready else ready)
  end.

(** While loop of GEngine::getTopo, GEngine.h 83-93; [fuel] bounds the iterations, None = out of fuel. *)
Fixpoint topo_loop (g : graph) (fuel : nat) (left : counters) (queue result : list nat) : option (list nat) :=
  match queue with
  | [] => Some result
  | cur :: q =>
      match fuel with
      | O => None
      | S f =>
          let '(left', ready) := dec_all left (succ g cur) in
          topo_loop g f left' (q ++ ready) (result ++ [cur])
      end
  end.

Definition is_nil {A} (l : list A) : bool := match l with [] => true | _ => false end.
(** Elements without dependency, in iteration order: GEngine.h 76-81, GStaticEngine.cpp 19-26, GDynamicEngine.cpp 76-78. *)
Definition fronts (g : graph) : list nat := filter (fun e => is_nil (dep g e)) (els g).
Definition ends (g : graph) : list nat := filter (fun e => is_nil (succ g e)) (els g).

(** GEngine::getTopo, GEngine.h 73-100 (the counters it restores at the end are [left0]). *)
Definition getTopo (g : graph) : option (list nat) :=
  topo_loop g (length (els g)) (left0 g) (fronts g) [].

(** GEngine::isDag, GEngine.h 107-110. *)
Definition isDag (g : graph) : option bool :=
  match getTopo g with Some r => Some (Nat.eqb (length r) (length (els g))) | None => None end.

(** GTopoEngine::setup, GTopoEngine.cpp 13-21: Some (Some order) on success, Some None on the error status. *)
Definition topo_setup (g : graph) : option (option (list nat)) :=
  match getTopo g with
  | Some r => Some (if Nat.eqb (length r) (length (els g)) then Some r else None)
  | None => None
  end.

(** One layer expansion, GStaticEngine.cpp 31-38. *)
Fixpoint layer_next (g : graph) (left : counters) (layer : list nat) : counters * list nat :=
  match layer with
  | [] => (left, [])
  | x :: r =>
      let '(left1, ready1) := dec_all left (succ g x) in
      let '(left2, ready2) := layer_next g left1 r in
      (left2, ready1 ++ ready2)
  end.
(** While loop of GStaticEngine::setup, GStaticEngine.cpp 28-39. *)
Fixpoint layer_loop (g : graph) (fuel : nat) (left : counters) (cur : list nat) (mat : list (list nat)) : option (list (list nat)) :=
  match cur with
  | [] => Some mat
  | _ =>
      match fuel with
      | O => None
      | S f =>
          let '(left', next) := layer_next g left cur in
          layer_loop g f left' next (mat ++ [cur])
      end
  end.
(** GStaticEngine::setup, GStaticEngine.cpp 13-45. totalSize counts exactly the pushes into the layers. *)
Definition static_setup (g : graph) : option (option (list (list nat))) :=
  match layer_loop g (length (els g)) (left0 g) (fronts g) [] with
  | Some m => Some (if Nat.eqb (length (concat m)) (length (els g)) then Some m else None)
  | None => None
  end.

(** * Sequential engine runs *)

Inductive gevent := GStart (e : nat) | GFinish (e : nat) (s : status).

(** Result of an engine run: a returned status, or the exception thrown by CGRAPH_FUNCTION_CHECK_STATUS
    (src/CBasic/CStrDefine.h / UtilsDefine.h 123-129) for a crash status. *)
Inductive eng_result := EReturn (s : status) | EThrow (msg : string).

(** GTopoEngine::run, GTopoEngine.cpp 24-31. [res e] is what fatProcessor(RUN) of [e] returns (any value). *)
Fixpoint topo_run (res : nat -> status) (order : list nat) (st : status) : list gevent * eng_result :=
  match order with
  | [] => ([], EReturn st)
  | e :: r =>
      let st' := st_plus st (res e) in
      match check_status st' with
      | Continue => let '(tr, out) := topo_run res r st' in (GStart e :: GFinish e (res e) :: tr, out)
      | ReturnStatus s => ([GStart e; GFinish e (res e)], EReturn s)
      | ThrowExc m => ([GStart e; GFinish e (res e)], EThrow m)
      end
  end.
