(** Graph optimizers: path collection, trim, maximal parallelism, separation
    (src/GraphCtrl/GraphElement/_GOptimizer/). *)
From Verif Require Export GraphModel.
Local Open Scope nat_scope.

(** * Path collection: GOptimizer.h *)
Fixpoint collect_all {A} (f : nat -> option (list A)) (l : list nat) : option (list A) :=
  match l with
  | [] => Some []
  | x :: r => match f x, collect_all f r with Some a, Some b => Some (a ++ b) | _, _ => None end
  end.
(** GOptimizer::collect, GOptimizer.h 27-40. The recursion has no bound in C++; [None] = [fuel] too small. *)
Fixpoint collect (fuel : nat) (g : graph) (curPath : list nat) (e : nat) : option (list (list nat)) :=
  match fuel with
  | O => None
  | S f =>
      match succ g e with
      | [] => Some [curPath ++ [e]]
      | l => collect_all (collect f g (curPath ++ [e])) l
      end
  end.
(** GOptimizer::collectPaths, GOptimizer.h 47-57. A path cannot have more elements than the set unless there is a cycle. *)
Definition collect_paths (g : graph) : option (list (list nat)) :=
  collect_all (collect (length (els g)) g []) (fronts g).

(** std::distance(elements.begin(), elements.find(x)); [length l] stands for end(). *)
Fixpoint pos (l : list nat) (x : nat) : nat :=
  match l with [] => 0 | y :: r => if Nat.eqb y x then 0 else S (pos r x) end.
(** The matrix as a function of two positions. Positions beyond the end would be out of bounds in C++; they never occur
    when dependencies stay within the set. *)
Definition mat := nat -> nat -> Z.
Definition mset (m : mat) (i j : nat) (v : Z) : mat := fun a b => if Nat.eqb a i && Nat.eqb b j then v else m a b.
(** GOptimizer::buildGraph, GOptimizer.h 68-89. *)
Fixpoint add_pairs (els_ : list nat) (fa so : Z) (m : mat) (p : list nat) : mat :=
  match p with
  | [] => m
  | x :: r =>
      let h := pos els_ x in
      let m' := fold_left (fun m y => mset (mset m h (pos els_ y) fa) (pos els_ y) h so) r m in
      add_pairs els_ fa so m' r
  end.
Definition build_graph (els_ : list nat) (paths : list (list nat)) (fa so un : Z) : mat :=
  fold_left (add_pairs els_ fa so) paths (fun _ _ => un).

(** * trim: GTrimOptimizer.h 26-57 *)
(** The candidates of one element, GTrimOptimizer.h 34-43. *)
Definition candidates (M : mat) (els_ dep_ : list nat) : list nat :=
  flat_map (fun di => flat_map (fun dj => if (M (pos els_ di) (pos els_ dj) =? 1)%Z then [di] else []) dep_) dep_.
(** GTrimOptimizer.h 45-49. *)
Fixpoint remove_candidates (st : gst) (cur : nat) (l : list nat) (num : nat) : gst * nat :=
  match l with
  | [] => (st, num)
  | d :: r => let '(st', ok) := removeDepend st cur (Some d) in remove_candidates st' cur r (if ok then S num else num)
  end.
(** Elements with the elements of a region below it; [sub] is empty for anything that is not a region. *)
Inductive rnode := RN (e : nat) (sub : list rnode).
Definition root (n : rnode) : nat := match n with RN e _ => e end.
Definition subs (n : rnode) : list rnode := match n with RN _ s => s end.
(** The loop over the elements, GTrimOptimizer.h 31-54, with the recursion into regions (GRegion::trim, GRegion.cpp 117-124).
    [None]: path collection does not end. *)
Fixpoint trim_node (M : mat) (els_ : list nat) (n : rnode) (s : gst * nat) {struct n} : option (gst * nat) :=
  match n with
  | RN e sub =>
      let s1 := remove_candidates (fst s) e (candidates M els_ (e_dep (fst s e))) (snd s) in
      match collect_paths (graph_of (fst s1) (map root sub)) with
      | None => None
      | Some paths =>
          let M' := build_graph (map root sub) paths 1 0 0 in
          (fix loop (l : list rnode) (s : gst * nat) : option (gst * nat) :=
             match l with
             | [] => Some s
             | x :: r => match trim_node M' (map root sub) x s with Some s' => loop r s' | None => None end
             end) sub s1
      end
  end.
Fixpoint trim_loop (M : mat) (els_ : list nat) (l : list rnode) (s : gst * nat) : option (gst * nat) :=
  match l with
  | [] => Some s
  | x :: r => match trim_node M els_ x s with Some s' => trim_loop M els_ r s' | None => None end
  end.
(** GTrimOptimizer::trim. *)
Definition trim (st : gst) (l : list rnode) : option (gst * nat) :=
  match collect_paths (graph_of st (map root l)) with
  | None => None
  | Some paths => trim_loop (build_graph (map root l) paths 1 0 0) (map root l) l (st, 0)
  end.

(** * Maximal parallelism: GMaxParaOptimizer.h *)
(** backtrace, GMaxParaOptimizer.h 60-75: the loop from position [n - k] with the current clique; returns maxCliqueSize. The recursive call
    for the next position and the rest of the loop have the same bound. *)
Fixpoint backtrace (k n : nat) (M : mat) (clique : list nat) (mx : nat) : nat :=
  match k with
  | O => Nat.max (length clique) mx
  | S k' =>
      let i := n - k in
      if Nat.leb (length clique + n - i) mx then mx
      else
        let mx' := if forallb (fun j => (M j i =? 1)%Z) clique then backtrace k' n M (clique ++ [i]) mx else mx in
        backtrace k' n M clique mx'
  end.
(** getMaxParaSize, GMaxParaOptimizer.h 37-48, and calcMaxCliqueSize, 55-79. *)
Definition get_max_para_size (g : graph) : option nat :=
  match collect_paths g with
  | None => None
  | Some paths => Some (backtrace (length (els g)) (length (els g)) (build_graph (els g) paths 0 0 1) [] 0)
  end.
(** GElementManager::calcMaxParaSize, GElementManager.cpp 132-136: [Some None] is the exception when an element is a group. *)
Definition calc_max_para (g : graph) (is_group : nat -> bool) : option (option nat) :=
  if existsb is_group (els g) then Some None
  else match get_max_para_size g with Some n => Some (Some n) | None => None end.

(** * Separation: GSeparateOptimizer.h *)
(** checkSeparate, GSeparateOptimizer.h 27-40. *)
Definition check_separate (g : graph) (fst_ snd_ : nat) : option bool :=
  match collect_paths g with
  | None => None
  | Some paths => Some (existsb (fun p => memb fst_ p && memb snd_ p) paths)
  end.

(** GElement::getDeepPath(false), GElement.cpp 582-595: from the outermost group to the element. [None]: the chain of
    groups does not end within [fuel]. *)
Fixpoint deep_path (fuel : nat) (belong : nat -> option nat) (e : nat) : option (list nat) :=
  match fuel with
  | O => None
  | S f => match belong e with
           | None => Some [e]
           | Some p => match deep_path f belong p with Some l => Some (l ++ [e]) | None => None end
           end
  end.
(** getNearestAncestor, GSeparateOptimizer.h 51-64: the loop over the common prefix. *)
Fixpoint last_common (p q : list nat) (acc : option nat) : option nat :=
  match p, q with
  | x :: p', y :: q' => if Nat.eqb x y then last_common p' q' (Some x) else acc
  | _, _ => acc
  end.
Definition oeqb (a : option nat) (b : nat) : bool := match a with Some x => Nat.eqb x b | None => false end.
(** getPatch, GSeparateOptimizer.h 73-82: walks the path from the element upwards. [rp] is the path reversed. *)
Fixpoint patch_loop (rp : list nat) (ancestor : option nat) (acc : option nat) : option nat :=
  match rp with
  | [] => acc
  | x :: r => if oeqb ancestor x then acc else patch_loop r ancestor (Some x)
  end.
Definition get_patch (path_ : list nat) (ancestor : option nat) (e : nat) : option nat :=
  if oeqb ancestor e then None else patch_loop (rev path_) ancestor None.

Inductive gkind := KCluster | KCondition | KMultiSerial | KMultiParallel | KSome | KMutable | KRegion.
(** isSeparate of each group class: GGroup.cpp 121-123, GCluster.cpp 56-58, GCondition.cpp 60-62, GMultiCondition.inl 113-126,
    GRegion.cpp 112-114. *)
Definition is_separate (k : gkind) (inner : graph) (a b : nat) : option bool :=
  match k with
  | KCluster | KCondition | KMultiSerial => Some true
  | KMultiParallel | KSome | KMutable => Some false
  | KRegion => check_separate inner a b
  end.
Inductive sep_result := SepAnswer (b : bool) | SepThrow | SepLoops.
(** The elements as the pipeline sees them. *)
Record tree_env := mkEnv {
  t_registered : nat -> bool;         (* repository_.find *)
  t_belong : nat -> option nat;
  t_kind : nat -> option gkind;       (* None: not a group *)
  t_inner : nat -> graph;             (* elements of a region *)
  t_top : graph;                      (* element_manager_->manager_elements_ *)
  t_depth : nat                       (* bound on nesting *)
}.
(** GPipeline::checkSeparate, GPipeline.cpp 301-322. *)
Definition pipeline_check_separate (v : tree_env) (a b : nat) : sep_result :=
  if Nat.eqb a b || negb (t_registered v a) || negb (t_registered v b) then SepAnswer false
  else match deep_path (t_depth v) (t_belong v) a, deep_path (t_depth v) (t_belong v) b with
       | Some pa, Some pb =>
           let anc := last_common pa pb None in
           let fa := get_patch pa anc a in
           let fb := get_patch pb anc b in
           let ans o := match o with Some r => SepAnswer r | None => SepLoops end in
           if oeqb anc a || oeqb anc b then SepAnswer true
           else match fa, fb with
                | Some x, Some y =>
                    match anc with
                    | Some p => match t_kind v p with None => SepThrow | Some k => ans (is_separate k (t_inner v p) x y) end
                    | None => ans (check_separate (t_top v) x y)
                    end
                | _, _ => SepThrow      (* null patch; shown impossible *)
                end
       | _, _ => SepLoops
       end.
