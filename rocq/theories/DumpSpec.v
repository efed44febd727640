(** Specification vocabulary for C89: reading a graphviz text. *)
From Verif Require Export DumpModel.
From Coq Require Export Permutation.
Local Open Scope nat_scope.
Local Open Scope list_scope.

(** Reading the text with the stack of the blocks that are open (None: the digraph itself): which element is declared, in which block.
    No result if a block is closed that was not opened, if one is left open, or if there is something outside of the digraph. *)
Fixpoint read (open : list (option nat)) (l : list dtok) : option (list (nat * option nat)) :=
  match l with
  | [] => match open with [] => Some [] | _ => None end
  | x :: r =>
      match x, open with
      | KHead, [] => match r with [] => None | _ => read [None] r end
      | KHead, _ :: _ => None
      | _, [] => None
      | KSub g _ _ _, _ => read (Some g :: open) r
      | KEnd, Some _ :: o => read o r
      | KTail, [None] => read [] r
      | KEnd, _ | KTail, _ => None
      | KNode e _ _ _, b :: _ => match read open r with None => None | Some z => Some ((e, b) :: z) end
      | _, _ => read open r
      end
  end.
(** The edges in the text, with their number if they are labelled with one. *)
Definition edges (l : list dtok) : list (nat * nat * option nat) := flat_map (fun x => match x with KEdge a b lab _ _ _ => [(a, b, lab)] | _ => [] end) l.

(** All elements of a tree: the element itself and what is inside it, with the element it is directly inside of. *)
Fixpoint members (parent : option nat) (t : dtree) : list (nat * option nat) :=
  match t with DT e kids => (e, parent) :: flat_map (members (Some e)) kids end.
(** All subtrees. *)
Fixpoint subtrees (t : dtree) : list dtree := match t with DT e kids => t :: flat_map subtrees kids end.
(** Elements that are not groups, and mutable groups, have nothing inside. *)
Definition shape_ok (v : denv) (f : list dtree) : Prop :=
  forall e kids, In (DT e kids) (flat_map subtrees f) -> is_group (d_kind v e) = false \/ d_kind v e = DMutable -> kids = [].

Fixpoint pairs (l : list nat) : list (nat * nat * option nat) := match l with a :: ((b :: _) as r) => (a, b, None) :: pairs r | _ => [] end.
Fixpoint numbered (g i : nat) (l : list nat) : list (nat * nat * option nat) := match l with [] => [] | b :: r => (g, b, Some i) :: numbered g (S i) r end.
(** The edges that belong to one element: to every element that depends on it; between neighbours in a cluster; from a condition to each of its children,
    with the index of the child. *)
Definition edges_of (v : denv) (t : dtree) : list (nat * nat * option nat) :=
  match t with DT e kids =>
    map (fun b => (e, b, None)) (d_succ v e) ++
    match d_kind v e with DCluster => pairs (map d_id kids) | DCondition => numbered e 0 (map d_id kids) | _ => [] end
  end.

(** The lexical structure of a text: inside a quoted string or not, and the number of braces that are open outside of quoted strings; inside of a quoted
    string a backslash protects the next character. None: a brace is closed that is not open, or the text ends inside of a quoted string or an open brace. *)
Fixpoint lex (quoted : bool) (depth : nat) (s : string) : option nat :=
  match s with
  | EmptyString => if quoted then None else Some depth
  | String c r =>
      if quoted then
        if Ascii.eqb c """" then lex false depth r
        else if Ascii.eqb c "\" then match r with EmptyString => None | String _ r1 => lex true depth r1 end
        else lex true depth r
      else
        if Ascii.eqb c """" then lex true depth r
        else if Ascii.eqb c "{" then lex false (S depth) r
        else if Ascii.eqb c "}" then match depth with 0 => None | S d => lex false d r end
        else lex false depth r
  end.
Definition well_formed (s : string) : Prop := lex false 0 s = Some 0.
(** A name without quotes and backslashes. *)
Fixpoint plain (s : string) : Prop := match s with EmptyString => True | String c r => c <> """"%char /\ c <> "\"%char /\ plain r end.

(** The loop counts in the text: on an arrow from an element to itself, or in the label of a block. *)
Definition loops (l : list dtok) : list (nat * nat) :=
  flat_map (fun x => match x with KLoop e n => [(e, n)] | KSub g _ (Some n) _ => [(g, n)] | _ => [] end) l.
(** Fences and coordinators refuse loops at init. *)
Definition loop_of (v : denv) (t : dtree) : list (nat * nat) :=
  match t with DT e _ => match d_kind v e with DFence | DCoord | DMutable => [] | _ => if Nat.ltb 1 (d_loop v e) then [(e, d_loop v e)] else [] end end.

(** The characters: [s] occurs in the text; the statement that declares an element (fences are boxes, coordinators diamonds); how the block of a group begins:
    its name, its loop count if it is above 1, a diamond for a condition and a point for the others, dashed exactly for a GSome. *)
Definition occurs (s text : string) : Prop := exists a b, text = (a ++ s ++ b)%string.
Definition node_text (v : denv) (e : nat) : string :=
  (ptr e ++ "[label=" ++ quote ++ name_text v e ++ perf_text v e ++ quote ++
   match d_kind v e with DFence => ", shape=box]" | DCoord => ", shape=diamond]" | _ => "];" end ++ nl)%string.
Definition block_text (v : denv) (g : nat) : string :=
  ("subgraph cluster_" ++ ptr g ++ " {" ++ nl ++
   "label=" ++ quote ++ name_text v g ++ (if Nat.leb (d_loop v g) 1 then "" else "(loop=" ++ num (d_loop v g) ++ ")") ++ perf_text v g ++ quote ++ ";" ++ nl ++
   ptr g ++ match d_kind v g with DCondition => "[shape=diamond];" | _ => "[shape=point height=0];" end ++ nl ++
   match d_kind v g with DSome => "color=blue;style=dashed;" | _ => "color=blue;" end ++ nl)%string.
