(** C89: what GPipeline::dump writes shows the pipeline as it is. *)
From Verif Require Import DumpProofs.
Local Open Scope nat_scope.
Local Open Scope list_scope.

(** Reading the text succeeds (every block is opened and closed in the right order, and everything is inside of the digraph), and it declares exactly the
    elements of the pipeline, each once, in the block of the group it is directly inside of.
    Missing for the whole of C89: mutable groups with children, see C89_mutable_refuted. *)
Theorem C89_elements_partial : forall v f, shape_ok v f -> read [] (dump_pipeline v f) = Some (flat_map (members None) f).
Proof. exact read_pipeline. Qed.

(** The edges are those of the pipeline, each once: the dependencies, the order in the clusters, and the choices of the conditions with their numbers. *)
Theorem C89_edges_partial : forall v f, shape_ok v f -> Permutation (edges (dump_pipeline v f)) (flat_map (edges_of v) (flat_map subtrees f)).
Proof. exact edges_pipeline. Qed.

(** The labels, and the marks on the edges: an end is drawn at the border of the block exactly if it is a group; red if both ends are on the longest path. *)
Theorem C89_marks : forall v f x, In x (dump_pipeline v f) ->
  match x with
  | KEdge a b _ tl hd red => tl = is_group (d_kind v a) /\ hd = is_group (d_kind v b) /\ red = (on_path v a && on_path v b)
  | KNode e label perf k => label = name_text v e /\ perf = perf_text v e /\ k = d_kind v e
  | KSub g label loop perf => label = name_text v g /\ perf = perf_text v g /\ is_group (d_kind v g) = true
  | _ => True
  end.
Proof. intros v f x H. pose proof (tok_pipeline v f) as F. rewrite Forall_forall in F. apply F in H. destruct x; exact H. Qed.

(** The loop counts above 1 are written, each once. *)
Theorem C89_loops_partial : forall v f, shape_ok v f -> loops (dump_pipeline v f) = flat_map (loop_of v) (flat_map subtrees f).
Proof. exact loops_pipeline. Qed.

(** The characters: if no name contains a quote or a backslash, quoted strings and braces are closed, whatever the pipeline. *)
Theorem C89_text_partial : forall v f, (forall e, plain (d_name v e)) -> well_formed (dump_text v f).
Proof. intros v f H. apply lex_text, H. Qed.

(** And the characters say it: every element is declared with its name in its shape, the block of every group begins with its name, loop count and marks
    (a diamond exactly for a condition, dashed exactly for a GSome), and every dependency is an arrow. *)
Theorem C89_drawn_partial : forall v f, shape_ok v f -> forall e kids, In (DT e kids) (flat_map subtrees f) ->
  occurs (node_text v e) (dump_text v f) /\
  (is_group (d_kind v e) = true -> d_kind v e <> DMutable -> occurs (block_text v e) (dump_text v f)) /\
  (forall b, In b (d_succ v e) -> occurs (ptr e ++ " -> " ++ ptr b) (dump_text v f)).
Proof.
  intros v f O e kids H. split; [|split].
  - exact (drawn_element v f O e kids H).
  - exact (drawn_block v f O e kids H).
  - intros b. exact (drawn_edge v f O e kids b H).
Qed.

(** A mutable group is written as if it were empty: neither the elements inside it nor their edges are shown. *)
Theorem C89_mutable_refuted : forall v g kids, d_kind v g = DMutable -> dump v (DT g kids) = dump v (DT g []).
Proof. intros v g kids H. rewrite !dump_eq, H. reflexivity. Qed.

(** Witness environments. *)
Definition wv : denv :=
  mkD (fun e => match e with 1 => "load" | 2 => "work" | 3 => "" | _ => "x" end%string) (fun e => match e with 1 => 3 | _ => 1 end)
      (fun e => match e with 2 => DCluster | 3 => DCondition | 7 => DFence | 9 => DMutable | _ => DPlain end)
      (fun e => match e with 1 => [2; 3] | 2 => [7] | 4 => [] | _ => [] end)
      (fun e => match e with 1 => Some (mkP 2 5 1234 1100 true) | 2 => Some (mkP 1 5 10 5 true) | _ => None end).
Definition wf : list dtree := [DT 1 []; DT 2 [DT 4 []; DT 3 [DT 5 []; DT 6 []]; DT 8 []]; DT 7 []].
Example ex_shape : shape_ok wv wf.
Proof.
  intros e kids H K. cbn in H. repeat (destruct H as [H|H]; [injection H as <- <-; try reflexivity; destruct K as [K|K]; discriminate K|]). contradiction.
Qed.
Example ex_members : read [] (dump_pipeline wv wf) =
  Some [(1, None); (2, None); (4, Some 2); (3, Some 2); (5, Some 3); (6, Some 3); (8, Some 2); (7, None)].
Proof. vm_compute. reflexivity. Qed.
Example ex_edges : edges (dump_pipeline wv wf) =
  [(1, 2, None); (1, 3, None); (3, 5, Some 0); (3, 6, Some 1); (4, 3, None); (3, 8, None); (2, 7, None)].
Proof. vm_compute. reflexivity. Qed.
Example ex_loops : loops (dump_pipeline wv wf) = [(1, 3)].
Proof. vm_compute. reflexivity. Qed.
Example ex_plain : forall e, plain (d_name wv e).
Proof. intros [|[|[|[|e]]]]; cbn; repeat split; discriminate. Qed.
Example ex_text : render (dump_edge wv 2 3 None) = ("p0x2 -> p0x3[ltail=cluster_p0x2 lhead=cluster_p0x3];" ++ nl)%string /\
  render (dump_begin wv 2) = ("subgraph cluster_p0x2 {" ++ nl ++ "label=" ++ quote ++ "work" ++ nl ++ "[start 0.05ms, finish 0.10ms," ++ nl ++ "per_cost 0.05ms]" ++ quote ++ ";" ++ nl)%string.
Proof. split; vm_compute; reflexivity. Qed.

Example ex_drawn : In (DT 3 [DT 5 []; DT 6 []]) (flat_map subtrees wf) /\
  block_text wv 3 = ("subgraph cluster_p0x3 {" ++ nl ++ "label=" ++ quote ++ "p0x3" ++ quote ++ ";" ++ nl ++ "p0x3[shape=diamond];" ++ nl ++ "color=blue;" ++ nl)%string /\
  node_text wv 7 = ("p0x7[label=" ++ quote ++ "x" ++ quote ++ ", shape=box]" ++ nl)%string.
Proof. split; [cbn; auto 10|split; vm_compute; reflexivity]. Qed.

(** So reading a pipeline with a mutable group does not give its elements. *)
Example C89_mutable_members_refuted : exists v f, read [] (dump_pipeline v f) <> Some (flat_map (members None) f).
Proof. exists wv, [DT 9 [DT 1 []]]. vm_compute. discriminate. Qed.

(** A quote in a name is written as it is: the text is not well-formed. *)
Definition quoted_name : denv :=
  mkD (fun e => "the 5" ++ quote ++ " disk")%string (fun _ => 1) (fun _ => DPlain) (fun _ => []) (fun _ => None).
Theorem C89_quote_refuted : exists v f, ~ well_formed (dump_text v f).
Proof. exists quoted_name, [DT 1 []]. vm_compute. discriminate. Qed.

(** Red is not only the longest path: a dependency that bypasses it is red as well, if both ends are on the path. *)
Definition bypass : denv :=
  mkD (fun _ => ""%string) (fun _ => 1) (fun _ => DPlain) (fun e => match e with 1 => [2; 3] | 2 => [3] | _ => [] end) (fun _ => Some (mkP 1 0 10 10 true)).
Theorem C89_red_refuted : exists v f path, (forall e, In e (map d_id f) -> on_path v e = true <-> In e path) /\
  (forall a b, In (a, b) (combine path (tl path)) -> In b (d_succ v a)) /\
  exists a b lab tl1 hd, In (KEdge a b lab tl1 hd true) (dump_pipeline v f) /\ ~ In (a, b) (combine path (tl path)).
Proof.
  exists bypass, [DT 1 []; DT 2 []; DT 3 []], [1; 2; 3]. split; [|split].
  - cbn [map d_id]. intros e I. split; [intros _; exact I|reflexivity].
  - cbn. intros a b [H|[H|[]]]; injection H as <- <-; cbn; auto.
  - exists 1, 3, None, false, false. split; [vm_compute; auto 10|]. cbn. intros [H|[H|[]]]; discriminate H.
Qed.

(** The formatting of the stream is changed: the precision always, and fixed notation stays on for a stream that is not std::cout and is lost for std::cout even if
    the text went elsewhere; its precision stays then. *)
Theorem C89_format_refuted :
  (forall c g o, f_prec (fst (dump_fmt c g o)) = 2) /\
  (forall g o, f_fixed (fst (dump_fmt false g o)) = true) /\
  (forall c g o, f_fixed (snd (dump_fmt c g o)) = false) /\
  (forall o, fst (dump_fmt true o o) = snd (dump_fmt true o o)) /\
  (forall g o, f_prec (snd (dump_fmt false g o)) = f_prec o).
Proof. split; [|split; [|split; [|split]]]; intros; try destruct c; reflexivity. Qed.

Print Assumptions C89_elements_partial.
Print Assumptions C89_edges_partial.
Print Assumptions C89_text_partial.
Print Assumptions C89_drawn_partial.
