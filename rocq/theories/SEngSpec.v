(** Runs of the static engine on the pool: the two parts of a history, who acts, and what a fair schedule is *)
From Verif Require Export SEngModel PoolSpec EngPoolSpec EngLiveSpec.
Local Open Scope nat_scope.
Local Open Scope list_scope.

(** What the engine did since run was called last, and what the pool did *)
Definition stat1 (c : secfg) (s : seng) (l : xlabel) : list slabel :=
  match l with
  | XRun => []
  | XMain r _ _ => [SMain r]
  | XDone w r => match who_has w (se_who s) with Some e => [SFinish e r] | None => [] end
  | XPool l => match executes (se_p s) l with Some (_, t) => if memb t (concat (sc_mat c)) then [SStart t] else [] | None => [] end
  end.
Fixpoint stat_part (c : secfg) (k : cfg) (s : seng) (ls : list xlabel) (done : list slabel) : list slabel :=
  match ls with
  | [] => done
  | l :: r => match xstep c k s l with None => [] | Some s1 => stat_part c k s1 r (match l with XRun => [] | _ => done ++ stat1 c s l end) end
  end.
Definition pool1x (c : secfg) (s : seng) (l : xlabel) : list plabel :=
  match l with
  | XMain _ busy a => match commits (se_s s) with Some e => [LSubmit e (sc_bind c e) busy a] | None => [] end
  | XPool l => [l]
  | _ => []
  end.
Fixpoint xpool_part (c : secfg) (k : cfg) (s : seng) (ls : list xlabel) : list plabel :=
  match ls with [] => [] | l :: r => match xstep c k s l with None => [] | Some s1 => pool1x c s l ++ xpool_part c k s1 r end end.
(** The thread in which the body of an element starts with a step; [None]: the thread that called run *)
Definition xstarts_in (s : seng) (l : xlabel) : option thr := match l with XPool g => option_map fst (executes (se_p s) g) | _ => None end.

(** Who takes a step *)
Definition xacts (l : xlabel) (a : actor) : bool :=
  match l, a with
  | XMain _ _ _, Caller => true
  | XDone w _, InPool v => thr_eqb v w
  | XPool (LPrim i _), InPool (Prim j) => Nat.eqb i j
  | XPool (LSec i _), InPool (Sec j) => Nat.eqb i j
  | _, _ => false
  end.
Definition xacted (ls : list xlabel) (a : actor) : bool := existsb (fun l => xacts l a) ls.
(** The caller of run and the threads of the pool act, and attempts to look into a queue succeed *)
Definition xat_work (l : xlabel) : bool :=
  match l with XMain _ _ _ | XDone _ _ => true | XPool (LPrim _ ok) | XPool (LSec _ ok) => ok | _ => false end.
(** What may disturb: an attempt to look into a queue fails, somebody else gives a task to the pool *)
Definition xdisturbs (l : xlabel) : bool :=
  match l with XPool (LSubmit _ _ _ _) => true | XPool (LPrim _ ok) | XPool (LSec _ ok) => negb ok | _ => false end.
Definition xmay (l : xlabel) : bool := xat_work l || xdisturbs l.
Definition xhits (ls : list xlabel) : nat := length (filter xdisturbs ls).
(** The caller has returned, or waits for a future that has no value yet *)
Definition waits (s : sst) : Prop := s_out s <> None \/ exists e m, s_main s = AGet e :: m /\ forall v, ~ In (e, v) (s_futs s).
(** Someone who has nothing to do, or does not exist *)
Definition xresting (k : cfg) (s : seng) (a : actor) : Prop :=
  match a with
  | Caller => waits (se_s s)
  | InPool w => ~ In w (map fst (se_who s)) /\ match w with Prim i => c_def k <= i | Sec j => p_st (se_p s) j = SExit end
  end.
(** A round: everyone who is not resting at its beginning acts at least once *)
Definition xround (c : secfg) (k : cfg) (s : seng) (ls : list xlabel) : Prop :=
  forallb xmay ls = true /\ forall a, xresting k s a \/ xacted ls a = true.
(** [n] rounds with [m] disturbances altogether *)
Inductive xrounds (c : secfg) (k : cfg) : seng -> nat -> nat -> seng -> Prop :=
| xr_end s : xrounds c k s 0 0 s
| xr_next s ls s1 n m s2 : xrun c k s ls = Some s1 -> xround c k s ls -> xrounds c k s1 n m s2 -> xrounds c k s (S n) (xhits ls + m) s2.
(** Long tasks have a thread, or there are none *)
Definition xlong_ok (c : secfg) (k : cfg) (p : pool) : Prop :=
  (exists j, sec_alive p j) \/ (c_max k <= 101 /\ forall e, In e (concat (sc_mat c)) -> sc_bind c e <> (-101)%Z).
(** Somewhere in the pool: in a queue or in the hands of a thread *)
Definition in_pool (p : pool) (t : nat) : Prop :=
  In t (p_q p) \/ In t (map (fun x => snd (snd x)) (p_prio p)) \/ (exists i, In t (p_wsq p i) \/ In t (p_held (p_pt p i))) \/ exists j, In t (s_held (p_st p j)).
