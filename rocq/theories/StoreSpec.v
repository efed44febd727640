(** Specification of saving and loading. *)
From Verif Require Export StoreModel.
Local Open Scope nat_scope.
Local Open Scope list_scope.

(** * What fits in the fields of the C++ structures *)
Definition fits (k : nat) (n : N) : Prop := (n < 256 ^ N.of_nat k)%N.
Definition el_fits (e : el) : Prop :=
  fits 8 (e_loop e) /\ fits 4 (e_bind e) /\ fits 4 (e_level e) /\ fits 8 (e_tmo e) /\ fits 4 (e_strat e) /\ fits 4 (e_type e).
Definition pl_fits (p : pl) : Prop :=
  Forall el_fits (p_els p) /\ Forall (fun d => fits 8 (fst (fst d))) (p_daemons p) /\ Forall (fun s => fits 4 (fst (fst (snd s)))) (p_stages p) /\
  Forall2 fits cfg_widths (p_cfg p) /\ (N.of_nat (u_size ty_pl (v_pl (store p))) < 256 ^ 8)%N.

(** * Pipelines that the API lets a user build, before init, all of whose types are registered *)
Definition ids (l : list el) : list str := map e_sess l.
(** The settings of an element. *)
Record good_el (reg : str -> option obj) (e : el) : Prop := mkGood {
  ge_sess : e_sess e <> []; ge_name : e_name e <> [];
  ge_cls : exists tmo, reg (e_cls e) = Some (OElement (e_type e) tmo) /\ (tmo = 0%N \/ e_loop e = 1%N);
  ge_loop : e_tmo e = 0%N \/ e_loop e = 1%N;                                          (* an element with a timeout runs once *)
  ge_macro : e_macro e = true -> e_type e = ty_node;
  ge_plain : is_adapter (e_type e) = false;
  ge_aspects : Forall (fun a => reg (fst a) = Some OAspect) (e_aspects e);
  ge_locals : Forall (fun a => reg (fst (snd a)) = Some OPassed) (e_locals e) }.
(** How the elements hang together. *)
Record good_links (l : list el) : Prop := mkLinks {
  gl_ids : NoDup (ids l);
  gl_belong : forall e g, In e l -> e_belong e = Some g -> In g (ids l);
  gl_kids : forall e, In e l -> NoDup (e_kids e) /\ (e_kids e <> [] -> is_group (e_type e) = true);
  gl_kid : forall e k c, In e l -> In k (e_kids e) -> In c l -> e_sess c = k -> e_belong c = Some (e_sess e) /\ (e_type e = ty_some -> e_tmo c <> 0%N);
  gl_deps : forall e, In e l -> NoDup (e_deps e) /\ ~ In (e_sess e) (e_deps e);
  gl_dep : forall e d, In e l -> In d (e_deps e) -> exists x, In x l /\ e_sess x = d /\ e_belong x = e_belong e }.
(** Everything but the parameters. *)
Record good (reg : str -> option obj) (p : pl) : Prop := mkGoodP {
  gp_init : p_init p = false;
  gp_els : Forall (good_el reg) (p_els p);
  gp_links : good_links (p_els p);
  gp_all : Forall (fun e => e_repo e = true) (p_els p);                                (* every element was made by this pipeline *)
  gp_kids : forall e k, In e (p_els p) -> In k (e_kids e) -> In k (ids (p_els p));
  gp_events : NoDup (map fst (p_events p)) /\ Forall (fun x => reg (fst (snd x)) = Some OEvent) (p_events p);
  gp_daemons : Forall (fun x => reg (snd (fst x)) = Some ODaemon) (p_daemons p);
  gp_stages : NoDup (map fst (p_stages p)) /\ Forall (fun x => reg (snd (fst (snd x))) = Some OStage) (p_stages p);
  gp_cfg : cfg_check (p_cfg p) = true;
  gp_fits : pl_fits p }.

(** * The same pipeline *)
(** The same element, up to the data that user classes keep in aspects and passed parameters, and the engine of a region. *)
Definition same_el (a b : el) : Prop :=
  e_sess a = e_sess b /\ e_cls a = e_cls b /\ e_type a = e_type b /\ e_name a = e_name b /\ e_loop a = e_loop b /\ e_vis a = e_vis b /\ e_bind a = e_bind b /\ e_level a = e_level b /\
  e_tmo a = e_tmo b /\ e_strat a = e_strat b /\ e_macro a = e_macro b /\ e_belong a = e_belong b /\ e_deps a = e_deps b /\ e_kids a = e_kids b /\
  map fst (e_aspects a) = map fst (e_aspects b) /\ map (fun x => (fst x, fst (snd x))) (e_locals a) = map (fun x => (fst x, fst (snd x))) (e_locals b) /\ e_reg a = e_reg b.
(** The same pipeline, up to data of user classes, engines, the kind of pool and two fields of its configuration. *)
Definition same_pl (p q : pl) : Prop :=
  Forall2 same_el (p_els p) (p_els q) /\ map (fun x => (fst x, fst (snd x))) (p_events p) = map (fun x => (fst x, fst (snd x))) (p_events q) /\ p_params p = p_params q /\
  map fst (p_daemons p) = map fst (p_daemons q) /\ map (fun x => (fst x, fst (snd x))) (p_stages p) = map (fun x => (fst x, fst (snd x))) (p_stages q) /\ p_cfg p = p_cfg q.
