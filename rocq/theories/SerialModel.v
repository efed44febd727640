(** GPipeline::makeSerial (src/GraphCtrl/GraphPipeline/GPipeline.cpp 274-293), GElementManager::checkSerializable (GraphElement/GElementManager.cpp 138-166), the isSerializable methods
    (GElement.cpp 514-516, GGroup/GGroup.cpp 90-99, GGroup/GRegion/GRegion.cpp 103-109, GGroup/GCondition/GMultiCondition.inl 97-109, GGroup/GSome/GSome.cpp 82-84, GGroup/GMutable/GMutable.cpp 66-69),
    and what a run does when the pool has no thread: everything below happens on the calling thread; a task given to the pool is never executed.
    Simplified: statuses are reduced to "error or not" (C40, C43, C55 have the details); every element has loop 1, is visible, has no aspects and is never held (ElemModel); events and daemons are left out;
    the result of a body, isMatch and choose are fixed for the run, one answer for each element. *)
From Verif Require Export GraphModel DynModel FastModel.
From Coq Require Export Lia Bool.
Local Open Scope nat_scope.
Local Open Scope list_scope.

(** Types of elements. [KOther]: GSome and GMutable, which are never serializable; what they do in a run is not modelled here. [KRegion true]: the region uses the dynamic engine. *)
Inductive kind := KNode | KCluster | KCond | KMultiS | KMultiP | KOther | KRegion (dynamic : bool).
Inductive elt := E (i : nat) (k : kind) (cs : list elt).
Definition idof (t : elt) : nat := match t with E i _ _ => i end.
Definition kidsof (t : elt) : list elt := match t with E _ _ cs => cs end.

Record env := mkEnv {
  n_dep : nat -> list nat;        (* dependence_ *)
  n_succ : nat -> list nat;       (* run_before_ *)
  n_bind : nat -> Z;              (* binding_index_: -1 unless set; regions and parallel multi conditions are constructed with -102 (GRegion.cpp 16, GMultiCondition.inl 18-22) *)
  n_async : nat -> bool;          (* isAsync(): a timeout is set, GElement.cpp 143-146 *)
  n_ok : nat -> bool;             (* the body does not end with an error *)
  n_match : nat -> bool;          (* isMatch() *)
  n_choice : nat -> Z;            (* choose() *)
  n_late_err : nat -> bool }.     (* the timeout strategy is AS_ERROR *)

Section M.
Variable v : env.
(** The elements of one manager (or region) and their dependencies. *)
Definition level (cs : list elt) : graph := mkGraph (map idof cs) (n_dep v) (n_succ v).

(** GElementManager::checkSerializable; [f]: isSerializable of the elements. *)
Definition check_ser (f : elt -> bool) (dynamic : bool) (cs : list elt) : bool :=
  dynamic
  && forallb (fun c => f c && negb (1 <? length (n_succ v (idof c))) && negb (1 <? length (n_dep v (idof c))) && negb (n_async v (idof c))) cs
  && (length (filter (fun c => is_nil (n_dep v (idof c))) cs) =? 1)
  && (length (filter (fun c => is_nil (n_succ v (idof c))) cs) =? 1).
Fixpoint is_ser (t : elt) : bool :=
  match t with
  | E i k cs =>
      match k with
      | KNode => true
      | KCluster | KCond | KMultiS => forallb is_ser cs
      | KMultiP => if 1 <? length cs then false else forallb is_ser cs
      | KOther => false
      | KRegion d => check_ser is_ser d cs
      end
  end.
(** GPipeline::makeSerial; [unique]: the pipeline has its own pool. *)
Definition make_serial (unique dynamic : bool) (cs : list elt) : bool := unique && check_ser is_ser dynamic cs.

(** What is seen of a run: an element starts, ends (with or without error), or is handed to the pool. *)
Inductive sev := SStart (e : nat) | SEnd (e : nat) (ok : bool) | SPool (e : nat).
(** How it ends for the calling thread; [RStuck]: it waits for a task that no thread executes. *)
Inductive sres := ROk | RErr | RStuck | RThrow.
Definition of_bool (b : bool) : sres := if b then ROk else RErr.
Definition outc : Type := list sev * sres.

(** One after the other, until one does not end well: GCluster::run (GCluster.cpp 19-27), GMultiCondition::serialRun (GMultiCondition.inl 46-58). *)
Fixpoint one_by_one (l : list outc) : outc :=
  match l with
  | [] => ([], ROk)
  | (tr, r) :: l => match r with ROk => let (tr', r') := one_by_one l in (tr ++ tr', r') | _ => (tr, r) end
  end.
Definition run_of (rs : list (nat * outc)) (x : nat) : outc :=
  match find (fun p => fst p =? x) rs with Some p => snd p | None => ([], RStuck) end.

(** GDynamicEngine::serialRunAll, GDynamicEngine.cpp 291-304. *)
Fixpoint serial_walk (fuel : nat) (run : nat -> outc) (x : nat) : outc :=
  match fuel with
  | O => ([], RStuck)
  | S f =>
      let (tr, r) := run x in
      match r with
      | ROk => match n_succ v x with [] => (tr, ROk) | y :: _ => let (tr', r') := serial_walk f run y in (tr ++ tr', r') end
      | _ => (tr, r)
      end
  end.

(** GDynamicEngine::commonRunAll, GDynamicEngine.cpp 51-63, on the calling thread: process 124-136, innerExec 139-152, afterElementRun 155-203, fatWait 206-228. *)
Record cst := mkCst { c_left : counters; c_fin : nat; c_tr : list sev; c_stop : option sres }.
Fixpoint proc (fuel : nat) (run : nat -> outc) (g : graph) (e : nat) (aff : bool) (s : cst) {struct fuel} : cst :=
  match fuel with
  | O => mkCst (c_left s) (c_fin s) (c_tr s) (Some RStuck)
  | S f =>
      match c_stop s with
      | Some _ => s
      | None =>
          if aff && Z.eqb (n_bind v e) (-1) then
            let (tr, r) := run e in
            match r with
            | ROk =>
                let s1 := mkCst (upd (c_left s) e (Z.of_nat (length (dep g e)))) (c_fin s) (c_tr s ++ tr) None in
                match calc_shape g (n_bind v) e with
                | ShLinkable => match succ g e with x :: _ => proc f run g x true s1 | [] => s1 end
                | ShRoot => fold_left (fun s x => proc f run g x (x =? last (succ g e) 0) s) (succ g e) s1
                | ShTail => mkCst (c_left s1) (S (c_fin s1)) (c_tr s1) None
                | ShNormal =>
                    let '(s2, res) := fold_left (fun p x =>
                        let '(s, res) := p in
                        let l := (c_left s x - 1)%Z in
                        let s := mkCst (upd (c_left s) x l) (c_fin s) (c_tr s) (c_stop s) in
                        if (l <=? 0)%Z then match res with None => (s, Some x) | Some _ => (proc f run g x false s, res) end else (s, res)) (succ g e) (s1, None) in
                    match res with Some x => proc f run g x true s2 | None => s2 end
                end
            | _ => mkCst (c_left s) (c_fin s) (c_tr s ++ tr) (Some r)
            end
          else mkCst (c_left s) (c_fin s) (c_tr s ++ [SPool e]) None
      end
  end.
Definition common_run (run : nat -> outc) (g : graph) : outc :=
  let s := fold_left (fun s x => proc (S (length (els g))) run g x (x =? last (fronts g) 0) s) (fronts g) (mkCst (left0 g) 0 [] None) in
  (c_tr s, match c_stop s with Some r => r | None => if length (ends g) <=? c_fin s then ROk else RStuck end).

(** GDynamicEngine::setup and run, GDynamicEngine.cpp 13-48. With no thread, analysisParallelMatrix (102-106) throws; this and the error for a set that is no DAG come during init. *)
Definition engine (cs : list elt) (rs : list (nat * outc)) : outc :=
  let g := level cs in
  match isDag g with
  | Some true =>
      match analysis_dag_type g (n_bind v) with
      | AllSerial => match fronts g with [] => ([], ROk) | x :: _ => serial_walk (length (els g)) (run_of rs) x end
      | AllParallel => ([], RThrow)
      | Common => common_run (run_of rs) g
      end
  | _ => ([], RErr)
  end.

Definition wrapped (i : nat) (o : outc) : outc :=
  let (tr, r) := o in
  match r with ROk => (SStart i :: tr ++ [SEnd i true], ROk) | RErr => (SStart i :: tr ++ [SEnd i false], RErr) | _ => (SStart i :: tr, r) end.
(** GCondition::run, GCondition.cpp 19-35: the child chosen; -1 is the last one. *)
Definition chosen {A} (z : Z) (l : list A) : option A :=
  if Z.eqb z (-1) && negb (is_nil l) then nth_error l (length l - 1) else if (0 <=? z)%Z && (z <? Z.of_nat (length l))%Z then nth_error l (Z.to_nat z) else None.

(** GElement::fatProcessor with RUN (GElement.cpp 236-262) on an element of the tree. An element with a timeout is handed to the pool, and no thread takes it before the timeout (asyncRun, 535-564). *)
Fixpoint exec (t : elt) : outc :=
  match t with
  | E i k cs =>
      if n_async v i then ([SPool i], if n_late_err v i then RErr else ROk)
      else wrapped i
        match k with
        | KNode => ([], of_bool (n_ok v i))
        | KCluster => one_by_one (map exec cs)
        | KCond => match chosen (n_choice v i) (map exec cs) with Some o => o | None => ([], ROk) end
        | KMultiS => one_by_one (map snd (filter (fun p => n_match v (fst p)) (map (fun c => (idof c, exec c)) cs)))
        | KMultiP => let l := filter (n_match v) (map idof cs) in (map SPool l, if is_nil l then ROk else RStuck)   (* commit, then wait for the futures: GMultiCondition.inl 62-85 *)
        | KOther => ([], RStuck)
        | KRegion true => engine cs (map (fun c => (idof c, exec c)) cs)
        | KRegion false => ([], RStuck)
        end
  end.
(** The pipeline's own elements, with the dynamic engine. *)
Definition run_pipeline (cs : list elt) : outc := engine cs (map (fun c => (idof c, exec c)) cs).
End M.
