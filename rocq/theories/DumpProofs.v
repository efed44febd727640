(** Proofs about the text of dump. *)
From Verif Require Export DumpSpec.
From Coq Require Import DecimalString.
Local Open Scope nat_scope.
Local Open Scope list_scope.

Lemma dtree_ind2 (P : dtree -> Prop) : (forall e kids, Forall P kids -> P (DT e kids)) -> forall t, P t.
Proof.
  intros H. fix IH 1. intros [e kids]. apply H. induction kids as [|x r IHr]; constructor; [apply IH|exact IHr].
Qed.

Definition okt (v : denv) (t : dtree) : Prop :=
  forall e kids, In (DT e kids) (subtrees t) -> is_group (d_kind v e) = false \/ d_kind v e = DMutable -> kids = [].
Lemma okt_self v e kids : okt v (DT e kids) -> is_group (d_kind v e) = false \/ d_kind v e = DMutable -> kids = [].
Proof. intros H. apply H. left. reflexivity. Qed.
Lemma okt_kids v e kids : okt v (DT e kids) -> Forall (okt v) kids.
Proof.
  intros H. apply Forall_forall. intros x I e1 k1 I1. apply H. right. apply in_flat_map. exists x. tauto.
Qed.
Lemma okt_forest v f : shape_ok v f -> Forall (okt v) f.
Proof. intros H. apply Forall_forall. intros x I e1 k1 I1. apply H. apply in_flat_map. exists x. tauto. Qed.

(** Reading. *)
Definition cons_all (z : list (nat * option nat)) (x : option (list (nat * option nat))) := match x with None => None | Some y => Some (z ++ y) end.
Lemma cons_all_app a b x : cons_all a (cons_all b x) = cons_all (a ++ b) x.
Proof. destruct x; cbn [cons_all]; [rewrite app_assoc|]; reflexivity. Qed.
Lemma cons_all_nil x : cons_all [] x = x.
Proof. destruct x; reflexivity. Qed.
Lemma cons_all_one p x : match x with None => None | Some z => Some (p :: z) end = cons_all [p] x.
Proof. destruct x; reflexivity. Qed.

Lemma read_element v e b o r : read (b :: o) (dump_element v e ++ r) = cons_all [(e, b)] (read (b :: o) r).
Proof.
  unfold dump_element. cbn [app read]. rewrite cons_all_one. f_equal.
  destruct (d_kind v e); try reflexivity; destruct (Nat.ltb 1 (d_loop v e)); reflexivity.
Qed.
Lemma read_succ v e b o r : read (b :: o) (dump_succ v e ++ r) = read (b :: o) r.
Proof. unfold dump_succ. induction (d_succ v e) as [|x l IH]; [reflexivity|cbn [map app dump_edge read]; exact IH]. Qed.

Definition reads (v : denv) (t : dtree) : Prop :=
  forall b o r, read (b :: o) (dump v t ++ r) = cons_all (members b t) (read (b :: o) r).
Lemma read_map v f : Forall (reads v) f -> forall b o r, read (b :: o) (flat_map (dump v) f ++ r) = cons_all (flat_map (members b) f) (read (b :: o) r).
Proof.
  intros F b o r. induction F as [|x l Hx _ IH]; cbn [flat_map]; [rewrite cons_all_nil; reflexivity|].
  rewrite <- app_assoc, Hx, IH. apply cons_all_app.
Qed.
Definition go_cluster (v : denv) := fix go (pre : option nat) (l : list dtree) : list dtok :=
  match l with [] => [] | x :: r => dump v x ++ match pre with None => [] | Some a => [dump_edge v a (d_id x) None] end ++ go (Some (d_id x)) r end.
Definition go_condition (v : denv) (e : nat) := fix go (i : nat) (l : list dtree) : list dtok :=
  match l with [] => [] | x :: r => dump v x ++ [dump_edge v e (d_id x) (Some i)] ++ go (S i) r end.
Lemma read_cluster v f : Forall (reads v) f -> forall pre b o r, read (b :: o) (go_cluster v pre f ++ r) = cons_all (flat_map (members b) f) (read (b :: o) r).
Proof.
  intros F. induction F as [|x l Hx _ IH]; intros pre b o r; cbn [flat_map go_cluster]; [rewrite cons_all_nil; reflexivity|].
  rewrite <- app_assoc, Hx, <- app_assoc. rewrite <- cons_all_app. f_equal. destruct pre; cbn [app dump_edge read]; apply IH.
Qed.
Lemma read_condition v e f : Forall (reads v) f -> forall i b o r, read (b :: o) (go_condition v e i f ++ r) = cons_all (flat_map (members b) f) (read (b :: o) r).
Proof.
  intros F. induction F as [|x l Hx _ IH]; intros i b o r; cbn [flat_map go_condition]; [rewrite cons_all_nil; reflexivity|].
  rewrite <- app_assoc, Hx, <- app_assoc. rewrite <- cons_all_app. f_equal. cbn [app dump_edge read]. apply IH.
Qed.

Lemma dump_eq v e kids : dump v (DT e kids) =
  match d_kind v e with
  | DPlain | DFence | DCoord | DMutable => dump_element v e ++ dump_succ v e
  | DCluster => dump_element v e ++ [dump_begin v e; KShape e false; KColor false] ++ go_cluster v None kids ++ [KEnd] ++ dump_succ v e
  | DCondition => dump_element v e ++ [dump_begin v e; KShape e true; KColor false] ++ go_condition v e 0 kids ++ [KEnd] ++ dump_succ v e
  | DRegion => dump_element v e ++ [dump_begin v e; KShape e false; KColor false] ++ flat_map (dump v) kids ++ [KEnd] ++ dump_succ v e
  | DSome => dump_element v e ++ [dump_begin v e; KShape e false; KColor true] ++ flat_map (dump v) kids ++ [KEnd] ++ dump_succ v e
  end.
Proof. reflexivity. Qed.

Lemma reads_all v t : okt v t -> reads v t.
Proof.
  induction t as [e kids IH] using dtree_ind2. intros OK.
  assert (F : Forall (reads v) kids).
  { pose proof (okt_kids _ _ _ OK) as K. rewrite Forall_forall in IH, K. apply Forall_forall. intros x I. apply IH, K; exact I. }
  assert (N := okt_self _ _ _ OK). intros b o r. rewrite dump_eq. cbn [members].
  destruct (d_kind v e) eqn:K;
    try (rewrite (N ltac:(auto)); cbn [flat_map]; rewrite <- app_assoc, read_element, read_succ; reflexivity);
    rewrite <- app_assoc, read_element; change ((e, b) :: flat_map (members (Some e)) kids) with ([(e, b)] ++ flat_map (members (Some e)) kids);
    rewrite <- cons_all_app; f_equal; cbn [app dump_begin read]; rewrite <- app_assoc.
  - rewrite (read_cluster v kids F). cbn [app read]. rewrite read_succ. reflexivity.
  - rewrite (read_map v kids F). cbn [app read]. rewrite read_succ. reflexivity.
  - rewrite (read_condition v e kids F). cbn [app read]. rewrite read_succ. reflexivity.
  - rewrite (read_map v kids F). cbn [app read]. rewrite read_succ. reflexivity.
Qed.

Lemma read_pipeline v f : shape_ok v f -> read [] (dump_pipeline v f) = Some (flat_map (members None) f).
Proof.
  intros OK. unfold dump_pipeline. cbn [read].
  assert (N : exists y z, flat_map (dump v) f ++ [KTail] = y :: z) by (destruct (flat_map (dump v) f); cbn [app]; eauto).
  destruct N as (y & z & N). rewrite N, <- N. rewrite read_map.
  - cbn [read cons_all]. rewrite app_nil_r. reflexivity.
  - pose proof (okt_forest _ _ OK) as F. rewrite Forall_forall in F. apply Forall_forall. intros x I. apply reads_all, F, I.
Qed.

(** Edges. *)
Lemma edges_app a b : edges (a ++ b) = edges a ++ edges b.
Proof. apply flat_map_app. Qed.
Lemma edges_element v e : edges (dump_element v e) = [].
Proof. unfold dump_element. cbn [edges flat_map app]. destruct (d_kind v e); try reflexivity; destruct (Nat.ltb 1 (d_loop v e)); reflexivity. Qed.
Lemma edges_succ v e : edges (dump_succ v e) = map (fun b => (e, b, None)) (d_succ v e).
Proof. unfold dump_succ. induction (d_succ v e) as [|x l IH]; [reflexivity|]. cbn [map]. rewrite <- IH. reflexivity. Qed.

Definition edged (v : denv) (t : dtree) : Prop := Permutation (edges (dump v t)) (flat_map (edges_of v) (subtrees t)).
Lemma edges_map v f : Forall (edged v) f -> Permutation (edges (flat_map (dump v) f)) (flat_map (edges_of v) (flat_map subtrees f)).
Proof.
  intros F. induction F as [|x l Hx _ IH]; cbn [flat_map]; [constructor|]. rewrite edges_app, flat_map_app. apply Permutation_app; assumption.
Qed.
Lemma pairs_cons a x l : pairs (a :: x :: l) = (a, x, None) :: pairs (x :: l).
Proof. reflexivity. Qed.
Lemma edges_cluster v f : Forall (edged v) f -> forall pre,
  Permutation (edges (go_cluster v pre f)) (flat_map (edges_of v) (flat_map subtrees f) ++ pairs (match pre with None => [] | Some a => [a] end ++ map d_id f)).
Proof.
  intros F. induction F as [|x l Hx _ IH]; intros pre; cbn [flat_map go_cluster map].
  - destruct pre; constructor.
  - rewrite !edges_app, flat_map_app, <- app_assoc. apply Permutation_app; [exact Hx|]. rewrite (IH (Some (d_id x))). cbn [app].
    destruct pre as [a|]; cbn [app].
    + rewrite pairs_cons. cbn [edges flat_map dump_edge app]. apply Permutation_middle.
    + reflexivity.
Qed.
Lemma edges_condition v e f : Forall (edged v) f -> forall i,
  Permutation (edges (go_condition v e i f)) (flat_map (edges_of v) (flat_map subtrees f) ++ numbered e i (map d_id f)).
Proof.
  intros F. induction F as [|x l Hx _ IH]; intros i; cbn [flat_map go_condition map numbered].
  - constructor.
  - rewrite edges_app, flat_map_app, <- app_assoc. apply Permutation_app; [exact Hx|]. rewrite edges_app. cbn [edges flat_map dump_edge app].
    fold (edges (go_condition v e (S i) l)). rewrite (IH (S i)). apply Permutation_middle.
Qed.

Lemma edged_all v t : okt v t -> edged v t.
Proof.
  induction t as [e kids IH] using dtree_ind2. intros OK.
  assert (F : Forall (edged v) kids).
  { pose proof (okt_kids _ _ _ OK) as K. rewrite Forall_forall in IH, K. apply Forall_forall. intros x I. apply IH, K; exact I. }
  assert (N := okt_self _ _ _ OK). unfold edged. rewrite dump_eq. cbn [subtrees flat_map]. unfold edges_of at 1.
  set (S := map (fun b => (e, b, None)) (d_succ v e)) in *.
  destruct (d_kind v e) eqn:K;
    try (rewrite (N ltac:(auto)); cbn [flat_map]; rewrite edges_app, edges_element, edges_succ, !app_nil_r; reflexivity);
    rewrite !edges_app, edges_element, edges_succ; cbn [edges flat_map dump_begin app]; fold (edges (flat_map (dump v) kids)); rewrite ?app_nil_r.
  - rewrite (edges_cluster v kids F None). cbn [app]. fold S. rewrite Permutation_app_comm, <- app_assoc. apply Permutation_app_head, Permutation_app_comm.
  - rewrite (edges_map v kids F). fold S. apply Permutation_app_comm.
  - rewrite (edges_condition v e kids F 0). fold S. rewrite Permutation_app_comm, <- app_assoc. apply Permutation_app_head, Permutation_app_comm.
  - rewrite (edges_map v kids F). fold S. apply Permutation_app_comm.
Qed.
Lemma edges_pipeline v f : shape_ok v f -> Permutation (edges (dump_pipeline v f)) (flat_map (edges_of v) (flat_map subtrees f)).
Proof.
  intros OK. unfold dump_pipeline. change (KHead :: ?x) with ([KHead] ++ x). rewrite !edges_app. cbn [edges flat_map app].
  fold (edges (flat_map (dump v) f)). rewrite app_nil_r. apply edges_map.
  pose proof (okt_forest _ _ OK) as F. rewrite Forall_forall in F. apply Forall_forall. intros x I. apply edged_all, F, I.
Qed.

(** What statements carry. *)
Definition tok_ok (v : denv) (x : dtok) : Prop :=
  match x with
  | KEdge a b _ tl hd red => tl = is_group (d_kind v a) /\ hd = is_group (d_kind v b) /\ red = (on_path v a && on_path v b)
  | KNode e label perf k => label = name_text v e /\ perf = perf_text v e /\ k = d_kind v e
  | KSub g label loop perf => label = name_text v g /\ perf = perf_text v g /\ is_group (d_kind v g) = true
  | _ => True
  end.
Lemma tok_element v e : Forall (tok_ok v) (dump_element v e).
Proof.
  unfold dump_element. constructor; [cbn; auto|]. destruct (d_kind v e); try constructor; destruct (Nat.ltb 1 (d_loop v e)); repeat constructor.
Qed.
Lemma tok_succ v e : Forall (tok_ok v) (dump_succ v e).
Proof. unfold dump_succ. induction (d_succ v e); constructor; [cbn; auto|assumption]. Qed.
Lemma tok_dump v t : Forall (tok_ok v) (dump v t).
Proof.
  induction t as [e kids IH] using dtree_ind2. rewrite dump_eq.
  assert (M : Forall (tok_ok v) (flat_map (dump v) kids)).
  { induction IH; cbn [flat_map]; [constructor|apply Forall_app; tauto]. }
  assert (C : forall pre, Forall (tok_ok v) (go_cluster v pre kids)).
  { induction IH as [|x l Hx _ IHl]; intros pre; cbn [go_cluster]; [constructor|]. cbn [flat_map] in M. apply Forall_app in M. destruct M as [_ M].
    apply Forall_app. split; [exact Hx|]. apply Forall_app. split; [destruct pre; repeat constructor|apply IHl, M]. }
  assert (D : forall i, Forall (tok_ok v) (go_condition v e i kids)).
  { clear C. induction IH as [|x l Hx _ IHl]; intros i; cbn [go_condition]; [constructor|]. cbn [flat_map] in M. apply Forall_app in M. destruct M as [_ M].
    apply Forall_app. split; [exact Hx|]. apply Forall_app. split; [repeat constructor|apply IHl, M]. }
  pose proof (tok_element v e) as E. pose proof (tok_succ v e) as Q.
  destruct (d_kind v e) eqn:K; repeat (apply Forall_app; split); auto; repeat constructor; cbn [tok_ok]; try rewrite K; auto.
Qed.
Lemma tok_pipeline v f : Forall (tok_ok v) (dump_pipeline v f).
Proof.
  unfold dump_pipeline. constructor; [exact I|]. apply Forall_app. split; [|repeat constructor].
  induction f; cbn [flat_map]; [constructor|]. apply Forall_app. split; [apply tok_dump|assumption].
Qed.

(** Characters. *)
Fixpoint bare (s : string) : Prop := match s with EmptyString => True | String c r => c <> """"%char /\ c <> "\"%char /\ c <> "{"%char /\ c <> "}"%char /\ bare r end.
Lemma eqb_no (a b : ascii) : a <> b -> Ascii.eqb a b = false.
Proof. intros H. apply Ascii.eqb_neq. exact H. Qed.
Lemma lex_bare d s : bare s -> forall r, lex false d (s ++ r)%string = lex false d r.
Proof.
  induction s as [|c s IH]; intros B r; [reflexivity|]. destruct B as (A & _ & C & D & B). cbn [String.append lex].
  rewrite (eqb_no _ _ A), (eqb_no _ _ C), (eqb_no _ _ D). apply IH, B.
Qed.
Lemma lex_plain d s : plain s -> forall r, lex true d (s ++ r)%string = lex true d r.
Proof.
  induction s as [|c s IH]; intros B r; [reflexivity|]. destruct B as (A & C & B). cbn [String.append lex].
  rewrite (eqb_no _ _ A), (eqb_no _ _ C). apply IH, B.
Qed.
Lemma bare_plain s : bare s -> plain s.
Proof. induction s; cbn; tauto. Qed.
Lemma bare_app a b : bare a -> bare b -> bare (a ++ b)%string.
Proof. induction a; cbn; tauto. Qed.
Lemma plain_app a b : plain a -> plain b -> plain (a ++ b)%string.
Proof. induction a; cbn; tauto. Qed.
Lemma bare_uint u : bare (NilEmpty.string_of_uint u).
Proof. induction u; cbn [NilEmpty.string_of_uint bare]; try exact I; (do 4 (split; [discriminate|])); exact IHu. Qed.
Lemma bare_num n : bare (num n).
Proof. apply bare_uint. Qed.
Lemma bare_ptr e : bare (ptr e).
Proof. unfold ptr. apply bare_app; [|apply bare_num]. cbn. repeat split; discriminate. Qed.
Lemma bare_time n : bare (time n).
Proof. unfold time. repeat (apply bare_app; [first [apply bare_num|cbn; repeat split; discriminate]|]). apply bare_num. Qed.
Ltac bare_lit := cbn; repeat split; discriminate.
Lemma plain_perf v e : plain (perf_text v e).
Proof.
  apply bare_plain. unfold perf_text. destruct (d_perf v e) as [p|]; [|exact I]. destruct (Nat.ltb 0 (p_loop p)); [|exact I].
  repeat (apply bare_app; [first [apply bare_time|destruct (Nat.ltb 1 (p_loop p)); [apply bare_app; [|apply bare_time]|exact I]; bare_lit|bare_lit]|]). bare_lit.
Qed.
Lemma plain_name v e : plain (d_name v e) -> plain (name_text v e).
Proof. unfold name_text. destruct (d_name v e) eqn:E; [intros _; apply bare_plain, bare_ptr|tauto]. Qed.

Definition cat (l : list dtok) : string := String.concat "" (map render l).
Lemma append_nil s : (s ++ "")%string = s.
Proof. induction s as [|c s IH]; cbn [String.append]; [|rewrite IH]; reflexivity. Qed.
Lemma cat_cons x l : cat (x :: l) = (render x ++ cat l)%string.
Proof. unfold cat. cbn [map]. destruct (map render l) eqn:E; cbn [String.concat]; [rewrite append_nil|]; reflexivity. Qed.
Lemma append_assoc a b c : ((a ++ b) ++ c = a ++ (b ++ c))%string.
Proof. induction a as [|x a IH]; cbn [String.append]; [|rewrite IH]; reflexivity. Qed.

Definition quiet (v : denv) (x : dtok) : Prop :=
  match x with
  | KHead | KSub _ _ _ _ | KEnd | KTail => False
  | KNode _ label perf _ => plain label /\ plain perf
  | _ => True
  end.
Lemma lex_step d (c : ascii) r : c <> """"%char -> c <> "{"%char -> c <> "}"%char -> lex false d (String c r) = lex false d r.
Proof. intros A B C. cbn [lex]. rewrite (eqb_no _ _ A), (eqb_no _ _ B), (eqb_no _ _ C). reflexivity. Qed.
Lemma lex_open d r : lex false d (quote ++ r)%string = lex true d r.
Proof. reflexivity. Qed.
Lemma lex_close d r : lex true d (quote ++ r)%string = lex false d r.
Proof. reflexivity. Qed.
Ltac lexer :=
  repeat first
    [ rewrite append_assoc
    | rewrite lex_open
    | rewrite lex_close
    | rewrite (lex_bare _ _ (bare_ptr _))
    | rewrite (lex_bare _ _ (bare_num _))
    | rewrite (lex_plain _ _ (bare_plain _ (bare_num _)))
    | rewrite lex_plain by assumption
    | rewrite lex_bare by bare_lit
    | rewrite lex_plain by bare_lit ].
Lemma lex_quiet v x : quiet v x -> forall d r, lex false d (render x ++ r)%string = lex false d r.
Proof.
  destruct x; cbn [quiet]; try contradiction.
  - intros [A B] d r. cbn [render]. destruct k; lexer; reflexivity.
  - intros _ d r. cbn [render]. lexer; reflexivity.
  - intros _ d r. cbn [render]. destruct diamond; lexer; reflexivity.
  - intros _ d r. cbn [render]. destruct dashed; lexer; reflexivity.
  - intros _ d r. cbn [render]. destruct label, tail, head, red; lexer; reflexivity.
Qed.
Lemma lex_sub g label loop perf : plain label -> plain perf -> forall d r, lex false d (render (KSub g label loop perf) ++ r)%string = lex false (S d) r.
Proof.
  intros A B d r. cbn [render]. lexer.
  change (lex false d (" {" ++ ?x)%string) with (lex false (S d) x). destruct loop; lexer; reflexivity.
Qed.

Lemma lex_end d r : lex false (S d) (render KEnd ++ r)%string = lex false d r.
Proof. reflexivity. Qed.

Section Lex.
Context (v : denv) (PN : forall e, plain (d_name v e)).
Lemma lex_quiets l : Forall (quiet v) l -> forall d r, lex false d (cat (l ++ r)) = lex false d (cat r).
Proof.
  intros F d r. induction F as [|x l Hx _ IH]; [reflexivity|]. cbn [app]. rewrite cat_cons, (lex_quiet v x Hx). exact IH.
Qed.
Lemma quiet_element e : Forall (quiet v) (dump_element v e).
Proof.
  unfold dump_element. constructor; [split; [apply plain_name, PN|apply plain_perf]|].
  destruct (d_kind v e); try constructor; destruct (Nat.ltb 1 (d_loop v e)); repeat constructor.
Qed.
Lemma quiet_succ e : Forall (quiet v) (dump_succ v e).
Proof. unfold dump_succ. induction (d_succ v e); constructor; [exact I|assumption]. Qed.
Definition level (t : dtree) : Prop := forall d r, lex false d (cat (dump v t ++ r)) = lex false d (cat r).
Lemma level_map f : Forall level f -> forall d r, lex false d (cat (flat_map (dump v) f ++ r)) = lex false d (cat r).
Proof. intros F d r. induction F as [|x l Hx _ IH]; [reflexivity|]. cbn [flat_map]. rewrite <- app_assoc, Hx. exact IH. Qed.
Lemma level_cluster f : Forall level f -> forall pre d r, lex false d (cat (go_cluster v pre f ++ r)) = lex false d (cat r).
Proof.
  intros F. induction F as [|x l Hx _ IH]; intros pre d r; [reflexivity|]. cbn [go_cluster]. rewrite <- !app_assoc, Hx.
  rewrite lex_quiets; [apply IH|]. destruct pre; repeat constructor.
Qed.
Lemma level_condition e f : Forall level f -> forall i d r, lex false d (cat (go_condition v e i f ++ r)) = lex false d (cat r).
Proof.
  intros F. induction F as [|x l Hx _ IH]; intros i d r; [reflexivity|]. cbn [go_condition]. rewrite <- !app_assoc, Hx.
  rewrite lex_quiets; [apply IH|repeat constructor].
Qed.
Lemma lex_block e x y body d r : quiet v x -> quiet v y -> (forall d r, lex false d (cat (body ++ r)) = lex false d (cat r)) ->
  lex false d (cat (dump_element v e ++ ([dump_begin v e; x; y] ++ body ++ [KEnd] ++ dump_succ v e) ++ r)) = lex false d (cat r).
Proof.
  intros Qx Qy B. rewrite lex_quiets by apply quiet_element. cbn [app]. rewrite cat_cons. unfold dump_begin.
  rewrite lex_sub by (first [apply plain_name, PN|apply plain_perf]). rewrite !cat_cons, (lex_quiet v x Qx), (lex_quiet v y Qy).
  rewrite <- app_assoc, B. cbn [app]. rewrite cat_cons, lex_end. apply lex_quiets, quiet_succ.
Qed.
Lemma level_all t : level t.
Proof.
  induction t as [e kids IH] using dtree_ind2. intros d r. rewrite dump_eq.
  destruct (d_kind v e); rewrite <- app_assoc;
    try (rewrite lex_quiets by apply quiet_element; apply lex_quiets, quiet_succ);
    apply lex_block; try exact I.
  - intros d1 r1. apply level_cluster, IH.
  - intros d1 r1. apply level_map, IH.
  - intros d1 r1. apply level_condition, IH.
  - intros d1 r1. apply level_map, IH.
Qed.
Lemma lex_text f : lex false 0 (dump_text v f) = Some 0.
Proof.
  unfold dump_text. fold (cat (dump_pipeline v f)). unfold dump_pipeline. rewrite cat_cons.
  change (lex false 0 (render KHead ++ ?x)%string) with (lex false 1 x).
  rewrite level_map; [reflexivity|]. apply Forall_forall. intros x _. apply level_all.
Qed.
End Lex.

(** Loop counts. *)
Lemma loops_app a b : loops (a ++ b) = loops a ++ loops b.
Proof. apply flat_map_app. Qed.
Lemma loops_succ v e : loops (dump_succ v e) = [].
Proof. unfold dump_succ. induction (d_succ v e) as [|x l IH]; [reflexivity|exact IH]. Qed.
Definition looped (v : denv) (t : dtree) : Prop := loops (dump v t) = flat_map (loop_of v) (subtrees t).
Lemma loops_map v f : Forall (looped v) f -> loops (flat_map (dump v) f) = flat_map (loop_of v) (flat_map subtrees f).
Proof. intros F. induction F as [|x l Hx _ IH]; cbn [flat_map]; [reflexivity|]. rewrite loops_app, flat_map_app, Hx, IH. reflexivity. Qed.
Lemma loops_cluster v f : Forall (looped v) f -> forall pre, loops (go_cluster v pre f) = flat_map (loop_of v) (flat_map subtrees f).
Proof.
  intros F. induction F as [|x l Hx _ IH]; intros pre; cbn [flat_map go_cluster]; [reflexivity|]. rewrite !loops_app, flat_map_app, Hx, IH. destruct pre; reflexivity.
Qed.
Lemma loops_condition v e f : Forall (looped v) f -> forall i, loops (go_condition v e i f) = flat_map (loop_of v) (flat_map subtrees f).
Proof.
  intros F. induction F as [|x l Hx _ IH]; intros i; cbn [flat_map go_condition]; [reflexivity|]. rewrite !loops_app, flat_map_app, Hx, IH. reflexivity.
Qed.
Lemma looped_all v t : okt v t -> looped v t.
Proof.
  induction t as [e kids IH] using dtree_ind2. intros OK.
  assert (F : Forall (looped v) kids).
  { pose proof (okt_kids _ _ _ OK) as K. rewrite Forall_forall in IH, K. apply Forall_forall. intros x I. apply IH, K; exact I. }
  assert (N := okt_self _ _ _ OK). unfold looped. rewrite dump_eq. cbn [subtrees flat_map]. unfold loop_of at 1.
  assert (E : loops (dump_element v e) = match d_kind v e with DPlain => if Nat.ltb 1 (d_loop v e) then [(e, d_loop v e)] else [] | _ => [] end).
  { unfold dump_element. destruct (d_kind v e); cbn [is_group negb]; rewrite ?Bool.andb_true_r, ?Bool.andb_false_r; try reflexivity. destruct (Nat.ltb 1 (d_loop v e)); reflexivity. }
  assert (B : forall x y r, loops ([dump_begin v e; KShape e x; KColor y] ++ r) = (if Nat.ltb 1 (d_loop v e) then [(e, d_loop v e)] else []) ++ loops r).
  { intros x y r. unfold dump_begin. cbn [app loops flat_map]. destruct (Nat.ltb 1 (d_loop v e)); reflexivity. }
  destruct (d_kind v e) eqn:K; try (rewrite (N ltac:(auto)); cbn [flat_map]; rewrite loops_app, E, loops_succ, !app_nil_r; reflexivity);
    rewrite loops_app, E, B, loops_app; cbn [app]; change (KEnd :: dump_succ v e) with ([KEnd] ++ dump_succ v e); rewrite loops_app, loops_succ; cbn [loops flat_map app]; rewrite app_nil_r; f_equal.
  - apply loops_cluster, F.
  - apply loops_map, F.
  - apply loops_condition, F.
  - apply loops_map, F.
Qed.
Lemma loops_pipeline v f : shape_ok v f -> loops (dump_pipeline v f) = flat_map (loop_of v) (flat_map subtrees f).
Proof.
  intros OK. unfold dump_pipeline. change (KHead :: ?x) with ([KHead] ++ x). rewrite !loops_app. cbn [loops flat_map app].
  fold (loops (flat_map (dump v) f)). rewrite app_nil_r. apply loops_map.
  pose proof (okt_forest _ _ OK) as F. rewrite Forall_forall in F. apply Forall_forall. intros x I. apply looped_all, F, I.
Qed.

(** Every statement is in the text, and what is dumped for an element is one piece of what is dumped for the pipeline. *)
Definition piece (a l : list dtok) : Prop := exists x y, l = x ++ a ++ y.
Lemma piece_refl a : piece a a.
Proof. exists [], []. rewrite app_nil_r. reflexivity. Qed.
Lemma piece_l a l r : piece a l -> piece a (l ++ r).
Proof. intros (x & y & ->). exists x, (y ++ r). rewrite <- !app_assoc. reflexivity. Qed.
Lemma piece_r a l r : piece a r -> piece a (l ++ r).
Proof. intros (x & y & ->). exists (l ++ x), y. rewrite <- !app_assoc. reflexivity. Qed.
Lemma piece_trans a b c : piece a b -> piece b c -> piece a c.
Proof. intros (x & y & ->) (z & w & ->). exists (z ++ x), (y ++ w). rewrite <- !app_assoc. reflexivity. Qed.
Lemma piece_map v (f : list dtree) t : In t f -> piece (dump v t) (flat_map (dump v) f).
Proof.
  induction f as [|x r IH]; [intros []|]. cbn [flat_map]. intros [->|H]; [apply piece_l, piece_refl|apply piece_r, IH, H].
Qed.
Lemma piece_cluster v f t : In t f -> forall pre, piece (dump v t) (go_cluster v pre f).
Proof.
  induction f as [|x r IH]; [intros []|]. cbn [go_cluster]. intros [->|H] pre; [apply piece_l, piece_refl|apply piece_r, piece_r, IH, H].
Qed.
Lemma piece_condition v e f t : In t f -> forall i, piece (dump v t) (go_condition v e i f).
Proof.
  induction f as [|x r IH]; [intros []|]. cbn [go_condition]. intros [->|H] i; [apply piece_l, piece_refl|apply piece_r, piece_r, IH, H].
Qed.
Lemma piece_kid v e kids t : okt v (DT e kids) -> In t kids -> piece (dump v t) (dump v (DT e kids)).
Proof.
  intros O H. pose proof (okt_self v e kids O) as S. rewrite (dump_eq v e kids).
  destruct (d_kind v e) eqn:K; try (rewrite S in H by (cbn; auto); destruct H);
    apply piece_r, piece_r, piece_l; [apply piece_cluster|apply piece_map|apply piece_condition|apply piece_map]; exact H.
Qed.
Lemma piece_tree v t0 : okt v t0 -> forall t, In t (subtrees t0) -> piece (dump v t) (dump v t0).
Proof.
  induction t0 as [e kids IH] using dtree_ind2. intros O t H. cbn [subtrees] in H. destruct H as [<-|H]; [apply piece_refl|].
  apply in_flat_map in H. destruct H as (x & Ix & It). pose proof (okt_kids v e kids O) as OK. rewrite Forall_forall in IH, OK.
  apply (piece_trans _ (dump v x)); [apply IH; auto|apply piece_kid; assumption].
Qed.
Lemma piece_pipeline v f : shape_ok v f -> forall t, In t (flat_map subtrees f) -> piece (dump v t) (dump_pipeline v f).
Proof.
  intros O t H. apply okt_forest in O. rewrite Forall_forall in O. apply in_flat_map in H. destruct H as (x & Ix & It).
  unfold dump_pipeline. change (KHead :: flat_map (dump v) f ++ [KTail]) with ([KHead] ++ (flat_map (dump v) f ++ [KTail])).
  apply piece_r, piece_l. apply (piece_trans _ (dump v x)); [apply piece_tree; auto|apply piece_map, Ix].
Qed.
Lemma sapp_assoc (a b c : string) : ((a ++ b) ++ c = a ++ (b ++ c))%string.
Proof. induction a; cbn; [reflexivity|f_equal; assumption]. Qed.
Lemma sapp_nil (a : string) : (a ++ "" = a)%string.
Proof. induction a; cbn; [reflexivity|f_equal; assumption]. Qed.
Lemma concat_cons (a : string) (l : list string) : String.concat "" (a :: l) = (a ++ String.concat "" l)%string.
Proof. destruct l; cbn [String.concat]; [induction a; cbn; [reflexivity|f_equal; assumption]|reflexivity]. Qed.
Lemma concat_app (a b : list string) : String.concat "" (a ++ b) = (String.concat "" a ++ String.concat "" b)%string.
Proof. induction a as [|x r IH]; [reflexivity|]. cbn [app]. rewrite !concat_cons, IH, sapp_assoc. reflexivity. Qed.
Lemma text_piece v f l : piece l (dump_pipeline v f) -> occurs (String.concat "" (map render l)) (dump_text v f).
Proof.
  intros (x & y & E). unfold dump_text. rewrite E, !map_app, !concat_app. eexists _, _. reflexivity.
Qed.
Lemma piece_in x (l : list dtok) : In x l -> piece [x] l.
Proof. intros H. apply in_split in H. destruct H as (a & b & ->). exists a, b. reflexivity. Qed.
Lemma text_in v f x : In x (dump_pipeline v f) -> occurs (render x) (dump_text v f).
Proof. intros H. apply piece_in, (text_piece v f) in H. exact H. Qed.
Lemma occurs_head a b t : occurs (a ++ b)%string t -> occurs a t.
Proof. intros (x & y & ->). exists x, (b ++ y)%string. rewrite sapp_assoc. reflexivity. Qed.
Lemma piece_in_of a l (x : dtok) : In x a -> piece a l -> In x l.
Proof. intros H (p & q & ->). rewrite !in_app_iff. tauto. Qed.
Lemma drawn_element v f : shape_ok v f -> forall e kids, In (DT e kids) (flat_map subtrees f) -> occurs (node_text v e) (dump_text v f).
Proof.
  intros O e kids H. apply (piece_pipeline v f O) in H. rewrite dump_eq in H.
  assert (X : occurs (render (KNode e (name_text v e) (perf_text v e) (d_kind v e))) (dump_text v f)).
  { apply text_in. apply (piece_in_of _ _ _) with (2 := H).
    assert (Y : In (KNode e (name_text v e) (perf_text v e) (d_kind v e)) (dump_element v e)) by (left; reflexivity).
    revert Y. generalize (KNode e (name_text v e) (perf_text v e) (d_kind v e)). intros x Y. destruct (d_kind v e); apply in_or_app; left; exact Y. }
  unfold node_text. destruct (d_kind v e); exact X.
Qed.
Lemma drawn_block v f : shape_ok v f -> forall e kids, In (DT e kids) (flat_map subtrees f) -> is_group (d_kind v e) = true -> d_kind v e <> DMutable ->
  occurs (block_text v e) (dump_text v f).
Proof.
  intros O e kids H G M. apply (piece_pipeline v f O) in H. rewrite dump_eq in H.
  assert (X : piece [dump_begin v e; KShape e (match d_kind v e with DCondition => true | _ => false end);
                     KColor (match d_kind v e with DSome => true | _ => false end)] (dump_pipeline v f)).
  { apply (piece_trans _ _ _) with (2 := H). destruct (d_kind v e); try discriminate G; try congruence; apply piece_r, piece_l, piece_refl. }
  apply text_piece in X. cbn [map] in X. rewrite !concat_cons in X. cbn [String.concat] in X. rewrite sapp_nil in X.
  match type of X with occurs ?s _ => assert (E : s = block_text v e) end; [|rewrite <- E; exact X].
  unfold block_text, dump_begin. cbn [render].
  replace (if Nat.leb (d_loop v e) 1 then ""%string else ("(loop=" ++ num (d_loop v e) ++ ")")%string)
    with (match (if Nat.ltb 1 (d_loop v e) then Some (d_loop v e) else None) with Some n => ("(loop=" ++ num n ++ ")")%string | None => ""%string end)
    by (destruct (d_loop v e) as [|[|?]]; reflexivity).
  change ("subgraph cluster_")%string with ("subgraph " ++ "cluster_")%string. rewrite !sapp_assoc.
  destruct (d_kind v e); reflexivity.
Qed.
Lemma drawn_edge v f : shape_ok v f -> forall e kids b, In (DT e kids) (flat_map subtrees f) -> In b (d_succ v e) ->
  occurs (ptr e ++ " -> " ++ ptr b) (dump_text v f).
Proof.
  intros O e kids b H I. apply (piece_pipeline v f O) in H. rewrite dump_eq in H.
  assert (X : occurs (render (dump_edge v e b None)) (dump_text v f)).
  { apply text_in. apply (piece_in_of _ _ _) with (2 := H).
    assert (Y : In (dump_edge v e b None) (dump_succ v e)) by (unfold dump_succ; apply in_map_iff; exists b; auto).
    destruct (d_kind v e); rewrite !in_app_iff; tauto. }
  unfold dump_edge in X. cbn [render] in X. rewrite <- !sapp_assoc in X. rewrite <- !sapp_assoc. 
  repeat (first [exact X | apply occurs_head in X]).
Qed.
