(** The text written by GPipeline::dump: a list of graphviz statements, and the characters of each statement.

    Simplified: an address is printed as 0x followed by decimal digits (what << prints for a pointer is up to the implementation);
    times are numbers of hundredths of a millisecond, printed with two digits after the point. *)
From Coq Require Export String Ascii.
From Coq Require Import DecimalString.
From Verif Require Export ListUtil.
Local Open Scope nat_scope.
Local Open Scope list_scope.

(** The classes that differ in the way they are written: nodes and most adapters; GFence; GCoordinator; GCluster; GRegion;
    GCondition and GMultiCondition (which inherits GCondition::dump); GSome; GMutable (which has no dump of its own). *)
Inductive dkind := DPlain | DFence | DCoord | DCluster | DRegion | DCondition | DSome | DMutable.
Definition is_group (k : dkind) : bool := match k with DPlain | DFence | DCoord => false | _ => true end.

(** An element and what is inside it: children_ of a group, manager_->manager_elements_ of a region, in iteration order. *)
Inductive dtree := DT (e : nat) (kids : list dtree).
Definition d_id (t : dtree) : nat := match t with DT e _ => e end.
(** GPerfInfo, src/GraphCtrl/GraphPipeline/_GPerf/GPerfDefine.h 16-22. *)
Record dperf := mkP { p_loop : nat; p_start : nat; p_finish : nat; p_accu : nat; p_longest : bool }.
(** The attributes of elements used by dump: name_, loop_, class, run_before_ (in iteration order), perf_info_ (None: null). *)
Record denv := mkD { d_name : nat -> string; d_loop : nat -> nat; d_kind : nat -> dkind; d_succ : nat -> list nat; d_perf : nat -> option dperf }.

(** Statements. [label] and [perf]: the two parts of a label; [tail], [head]: whether ltail, lhead are given. *)
Inductive dtok :=
| KHead
| KNode (e : nat) (label perf : string) (k : dkind)
| KLoop (e n : nat)
| KSub (g : nat) (label : string) (loop : option nat) (perf : string)
| KShape (g : nat) (diamond : bool)
| KColor (dashed : bool)
| KEdge (a b : nat) (label : option nat) (tail head red : bool)
| KEnd
| KTail.

(** Printing numbers, addresses and times. *)
Definition num (n : nat) : string := NilEmpty.string_of_uint (Nat.to_uint n).
Definition ptr (e : nat) : string := ("p0x" ++ num e)%string.
Definition time (n : nat) : string := (num (Nat.div n 100) ++ "." ++ num (Nat.div (Nat.modulo n 100) 10) ++ num (Nat.modulo n 10))%string.
Definition nl : string := String "010"%char EmptyString.
Definition quote : string := String """"%char EmptyString.

(** GElement::dumpPerfInfo, src/GraphCtrl/GraphElement/GElement.cpp 426-438. *)
Definition perf_text (v : denv) (e : nat) : string :=
  match d_perf v e with
  | Some p =>
      if Nat.ltb 0 (p_loop p)
      then (nl ++ "[start " ++ time (p_start p) ++ "ms, finish " ++ time (p_finish p) ++ "ms," ++ nl ++ "per_cost " ++ time (Nat.div (p_accu p) (p_loop p)) ++
            (if Nat.ltb 1 (p_loop p) then "ms, total_cost " ++ time (p_accu p) else "") ++ "ms]")%string
      else EmptyString
  | None => EmptyString
  end.
(** The name, or the address if it is empty, GElement.cpp 418-422 and GGroup.cpp 69-73. *)
Definition name_text (v : denv) (e : nat) : string := match d_name v e with EmptyString => ptr e | s => s end.
(** src->perf_info_ && src->perf_info_->in_longest_path_, GElement.cpp 398-399. *)
Definition on_path (v : denv) (e : nat) : bool := match d_perf v e with Some p => p_longest p | None => false end.

(** GElement::dumpEdge, GElement.cpp 384-402. *)
Definition dump_edge (v : denv) (a b : nat) (lab : option nat) : dtok :=
  KEdge a b lab (is_group (d_kind v a)) (is_group (d_kind v b)) (on_path v a && on_path v b).
(** GElement::dumpElement and dumpElementHeader, GElement.cpp 405-423; GFence::dumpElement, GFence.cpp 57-61 and
    GCoordinator::dumpElement, GCoordinator.inl 34-39 (no loop statement). *)
Definition dump_element (v : denv) (e : nat) : list dtok :=
  KNode e (name_text v e) (perf_text v e) (d_kind v e) ::
  match d_kind v e with
  | DFence | DCoord => []
  | k => if Nat.ltb 1 (d_loop v e) && negb (is_group k) then [KLoop e (d_loop v e)] else []
  end.
(** GGroup::dumpGroupLabelBegin, GGroup.cpp 64-81. *)
Definition dump_begin (v : denv) (g : nat) : dtok :=
  KSub g (name_text v g) (if Nat.ltb 1 (d_loop v g) then Some (d_loop v g) else None) (perf_text v g).
(** The loop over run_before_ at the end of every dump, e.g. GElement.cpp 378-380. *)
Definition dump_succ (v : denv) (e : nat) : list dtok := map (fun b => dump_edge v e b None) (d_succ v e).

(** The virtual function dump: GElement (GElement.cpp 375-381; also used by GMutable), GCluster (GCluster.cpp 30-53: consecutive children are joined),
    GRegion (GRegion.cpp 85-100), GCondition (GCondition.cpp 38-57: an edge to every child, labelled with its index), GSome (GSome.cpp 87-102). *)
Fixpoint dump (v : denv) (t : dtree) : list dtok :=
  match t with DT e kids =>
    match d_kind v e with
    | DPlain | DFence | DCoord | DMutable => dump_element v e ++ dump_succ v e
    | DCluster =>
        dump_element v e ++ [dump_begin v e; KShape e false; KColor false] ++
        (fix go (pre : option nat) (l : list dtree) : list dtok :=
           match l with [] => [] | x :: r => dump v x ++ match pre with None => [] | Some a => [dump_edge v a (d_id x) None] end ++ go (Some (d_id x)) r end) None kids ++
        [KEnd] ++ dump_succ v e
    | DCondition =>
        dump_element v e ++ [dump_begin v e; KShape e true; KColor false] ++
        (fix go (i : nat) (l : list dtree) : list dtok :=
           match l with [] => [] | x :: r => dump v x ++ [dump_edge v e (d_id x) (Some i)] ++ go (S i) r end) 0 kids ++
        [KEnd] ++ dump_succ v e
    | DRegion => dump_element v e ++ [dump_begin v e; KShape e false; KColor false] ++ flat_map (dump v) kids ++ [KEnd] ++ dump_succ v e
    | DSome => dump_element v e ++ [dump_begin v e; KShape e false; KColor true] ++ flat_map (dump v) kids ++ [KEnd] ++ dump_succ v e
    end
  end.
(** GPipeline::dump, src/GraphCtrl/GraphPipeline/GPipeline.cpp 200-216. [f]: element_manager_->manager_elements_ in iteration order. *)
Definition dump_pipeline (v : denv) (f : list dtree) : list dtok := KHead :: flat_map (dump v) f ++ [KTail].

(** The characters of a statement: the literals at the places cited above. *)
Definition render (x : dtok) : string :=
  match x with
  | KHead => nl ++ "digraph CGraph {" ++ nl ++ "compound=true;" ++ nl
  | KNode e label perf k =>
      ptr e ++ "[label=" ++ quote ++ label ++ perf ++ quote ++
      match k with DFence => ", shape=box]" ++ nl | DCoord => ", shape=diamond]" ++ nl | _ => "];" ++ nl end
  | KLoop e n => ptr e ++ " -> " ++ ptr e ++ "[label=" ++ quote ++ num n ++ quote ++ "]" ++ ";" ++ nl
  | KSub g label loop perf =>
      "subgraph " ++ "cluster_" ++ ptr g ++ " {" ++ nl ++ "label=" ++ quote ++ label ++
      match loop with Some n => "(loop=" ++ num n ++ ")" | None => "" end ++ perf ++ quote ++ ";" ++ nl
  | KShape g diamond => ptr g ++ (if diamond then "[shape=diamond];" else "[shape=point height=0];") ++ nl
  | KColor dashed => (if dashed then "color=blue;style=dashed;" else "color=blue;") ++ nl
  | KEdge a b label tail head red =>
      ptr a ++ " -> " ++ ptr b ++ match label with Some i => "[label=" ++ quote ++ num i ++ quote ++ "]" | None => "" end ++
      match tail, head with
      | true, true => "[ltail=cluster_" ++ ptr a ++ " lhead=cluster_" ++ ptr b ++ "]"
      | true, false => "[ltail=cluster_" ++ ptr a ++ "]"
      | false, true => "[lhead=cluster_" ++ ptr b ++ "]"
      | false, false => ""
      end ++ (if red then "[color=red]" else "") ++ ";" ++ nl
  | KEnd => "}" ++ nl
  | KTail => "}" ++ nl ++ nl
  end%string.
Definition dump_text (v : denv) (f : list dtree) : string := String.concat "" (map render (dump_pipeline v f)).

(** The formatting state of an output stream (fixed notation, precision) and what dump does to it, GPipeline.cpp 203, 214:
    the given stream is set to fixed notation with two digits, and at the end fixed notation is switched off on std::cout. *)
Record dfmt := mkF { f_fixed : bool; f_prec : nat }.
Definition dump_fmt (is_cout : bool) (given cout : dfmt) : dfmt * dfmt :=
  let given1 := mkF true 2 in
  if is_cout then (mkF false (f_prec given1), mkF false (f_prec given1)) else (given1, mkF false (f_prec cout)).
