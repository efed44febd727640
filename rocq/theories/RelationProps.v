(** C122: getRelation tells how the pipeline was put together *)
From Verif Require Import GraphSpec DepProofs RelationSpec PlaceProofs PlaceProps RelationProofs.
From Coq Require Import Lia.
Local Open Scope nat_scope.
Local Open Scope list_scope.

(** After every history, whatever was refused: b is a predecessor of a exactly if a is a successor of b, no element is its own, and nothing is listed twice. *)
Theorem C122_order : forall h a b, let s := rel_after h in
  (In b (predecessors (getRelation s a)) <-> In a (successors (getRelation s b)))
  /\ ~ In a (predecessors (getRelation s a)) /\ NoDup (predecessors (getRelation s a)) /\ NoDup (successors (getRelation s a)).
Proof.
  intros h a b s. pose proof (edges_all h) as (E1 & E2 & E3). unfold depends, precedes in *. cbn [predecessors successors getRelation]. split; [apply E1|]. split; [apply E2|]. apply E3.
Qed.
(** If no call that adds dependencies was refused, the predecessors are those that the accepted calls asked for and did not take back. Making, grouping and registering do not change them. *)
Theorem C122_asked_partial : forall h, none_refused h -> forall a b, In b (predecessors (getRelation (rel_after h) a)) <-> asked false h (rel_answers h) a b = true.
Proof. intros h N a b. exact (edges_asked h N a b). Qed.
(** After every history, also with the calls of the Python interface: an element is among the children of the group it belongs to. *)
Theorem C122_belong : forall h e g, belong (getRelation (rel_after h) e) = Some g -> In e (children (getRelation (rel_after h) g)).
Proof.
  intros h e g. destruct (place_part h) as (_ & L & B). cbn [belong children getRelation]. rewrite B, L. apply up_all.
Qed.
(** And the children belong to the group, they are those it was made of, in this order, if no element was given away twice. *)
Theorem C122_children_partial : forall h, cpp (places h) -> once (places h) -> 
  (forall e g, In e (children (getRelation (rel_after h) g)) <-> belong (getRelation (rel_after h) e) = Some g)
  /\ (forall g els, made_of (places h) g els -> children (getRelation (rel_after h) g) = els).
Proof.
  intros h C O. destruct (place_part h) as (_ & L & B). destruct (C104_tree_partial (places h) C O) as (_ & _ & _ & _ & T1 & T2). cbn [belong children getRelation]. rewrite L. split; [|exact T2].
  intros e g. rewrite B. exact (kid_belong _ _ _ (linv_all _ C) O e g).
Qed.
(** An element put into two groups is listed by both and belongs to the second. *)
Theorem C122_shared_refuted : exists h e g1 g2, cpp (places h) /\ (forall a, In a (rel_answers h) -> a = ROk) /\ g1 <> g2
  /\ In e (children (getRelation (rel_after h) g1)) /\ belong (getRelation (rel_after h) e) = Some g2.
Proof.
  exists [RPlace LNode; RPlace (LGroup false [0]); RPlace (LGroup true [0])], 0, 1, 2. split; [|split; [|split; [discriminate|]]].
  - intros o H. cbn in H. destruct H as [<-|[<-|[<-|[]]]]; exact I.
  - intros a H. vm_compute in H. destruct H as [<-|[<-|[<-|[]]]]; reflexivity.
  - split; vm_compute; auto.
Qed.
(** A refused call has entered the dependencies before the one that was refused. *)
Theorem C122_refused_refuted : exists h a b on, rel_answers (h ++ [RDepend a on]) = rel_answers h ++ [RRefused]
  /\ ~ In b (predecessors (getRelation (rel_after h) a)) /\ In b (predecessors (getRelation (rel_after (h ++ [RDepend a on])) a)).
Proof.
  exists [RPlace LNode; RPlace LNode; RPlace LNode; RPlace (LGroup false [2])], 0, 1, [1; 2]. split; [reflexivity|]. split; [intros []|]. vm_compute. auto.
Qed.

(** Five elements: 4 is a cluster of 1 and 2, and a region 5 of 4; 2 comes after 1, 5 after 0 and 3, the latter is taken back. *)
Definition c122_h : list rop :=
  [RPlace LRegNew; RPlace LNode; RPlace LNode; RPlace LRegNew; RDepend 3 [0]; RPlace (LGroup false [1; 2]); RDepend 2 [1; 2]; RPlace (LGroup true [4]);
   RDepend 5 [0; 3]; RPlace (LRegType 5); RRemove 5 3; RRemove 5 1; RDepend 1 [0]; RPlace (LRegDirect 4)].
Definition c122_k : list rop := firstn 12 c122_h.
Example C122_nonvacuous :
  rel_answers c122_h = [ROk; ROk; ROk; ROk; ROk; ROk; ROk; ROk; ROk; ROk; ROk; RRefused; RRefused; RRefused]
  /\ none_refused c122_k /\ cpp (places c122_h) /\ once (places c122_h)
  /\ getRelation (rel_after c122_h) 5 = mkRel [0] [] [4] None /\ getRelation (rel_after c122_h) 4 = mkRel [] [] [1; 2] (Some 5)
  /\ getRelation (rel_after c122_h) 2 = mkRel [1] [] [] (Some 4) /\ getRelation (rel_after c122_h) 0 = mkRel [] [3; 5] [] None.
Proof.
  split; [vm_compute; reflexivity|]. split.
  { assert (A : rel_answers c122_k = [ROk; ROk; ROk; ROk; ROk; ROk; ROk; ROk; ROk; ROk; ROk; RRefused]) by (vm_compute; reflexivity). intros i e on H F. rewrite A in F. clear A. do 12 (destruct i as [|i]; [vm_compute in F; try discriminate F; vm_compute in H; discriminate H|]). destruct i; discriminate F. }
  split; [|split; [|vm_compute; auto]].
  - intros o H. cbn in H. repeat (destruct H as [<-|H]; [exact I|]). destruct H.
  - unfold once. vm_compute. repeat constructor; cbn; intuition discriminate.
Qed.

Print Assumptions C122_order.
Print Assumptions C122_asked_partial.
Print Assumptions C122_belong.
Print Assumptions C122_children_partial.
