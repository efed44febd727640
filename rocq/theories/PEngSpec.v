(** Runs of independent elements on the pool: which thread runs what, who acts, what a fair schedule is *)
From Verif Require Export PEngModel GraphSpec EngPoolSpec PoolSpec EngLiveSpec.
Local Open Scope nat_scope.
Local Open Scope list_scope.

(** run is called again after a run that returned an error only when no task of it is left *)
Fixpoint careful (c : pecfg) (k : cfg) (s : peng) (ls : list ylabel) : Prop :=
  match ls with
  | [] => True
  | l :: r =>
      (match l with YEng LRun _ _ => forall st, p_out (pe_s s) = Some st -> (code st < 0)%Z -> p_pool (pe_s s) = [] /\ pe_who s = [] | _ => True end) /\
      match ystep c k s l with Some s1 => careful c k s1 r | None => True end
  end.
(** The thread inside which the body of an element starts with a step *)
Definition body_in (s : peng) (l : ylabel) : option thr := match l with YEng (LWork i _) _ _ => nth_error (pe_who s) i | _ => None end.
(** Where an element belongs: those of a row with several elements to the thread of the row, if there is one, or one that may take its tasks;
    an element that is alone in its row to the thread its binding asks for *)
Definition belongs (c : pecfg) (k : cfg) (e : nat) (w : thr) : Prop :=
  exists i row, nth_error (p_rows (pc_c c)) i = Some row /\ In e row /\
    (2 <= length row -> i < c_def k -> near k w i) /\ (length row = 1 -> obeys k (pc_bind c e) w).
(** The actions of the engine and of the pool in a history of both *)
Fixpoint fast_part (c : pecfg) (k : cfg) (s : peng) (ls : list ylabel) : list dlabel :=
  match ls with
  | [] => []
  | l :: r =>
      match ystep c k s l with
      | None => []
      | Some s1 =>
          (match l with
           | YEng l _ _ => [l]
           | YPool l => match executes (pe_p s) l with Some (_, t) => if memb t (p_els (pc_c c)) then [LPick (index_of t (p_pool (pe_s s)))] else [] | None => [] end
           end) ++ fast_part c k s1 r
      end
  end.
Fixpoint pool_part2 (c : pecfg) (k : cfg) (s : peng) (ls : list ylabel) : list plabel :=
  match ls with
  | [] => []
  | l :: r =>
      match ystep c k s l with
      | None => []
      | Some s1 =>
          (match l with
           | YEng (LMain _) busy a => match next_call c (p_main (pe_s s)) busy a with Some g => [g] | None => [] end
           | YEng _ _ _ => []
           | YPool l => [l]
           end) ++ pool_part2 c k s1 r
      end
  end.

(** The same elements and rows, with that number of threads *)
Definition cw (c : pcfg) (w : nat) : pcfg := mkPC (p_els c) (p_rows c) w (p_epoch c).
(** Who takes a step *)
Definition yacts (s : peng) (l : ylabel) (a : actor) : bool :=
  match l, a with
  | YEng (LMain _) _ _, Caller => true
  | YEng (LWork i _) _ _, InPool w => match nth_error (pe_who s) i with Some v => thr_eqb w v | None => false end
  | YPool (LPrim i _), InPool (Prim j) => Nat.eqb i j
  | YPool (LSec i _), InPool (Sec j) => Nat.eqb i j
  | _, _ => false
  end.
Fixpoint yacted (c : pecfg) (k : cfg) (s : peng) (ls : list ylabel) (a : actor) : bool :=
  match ls with [] => false | l :: r => yacts s l a || match ystep c k s l with Some s1 => yacted c k s1 r a | None => false end end.
Definition yat_work (l : ylabel) : bool :=
  match l with YEng (LMain _) _ _ | YEng (LWork _ _) _ _ => true | YPool (LPrim _ ok) | YPool (LSec _ ok) => ok | _ => false end.
Definition ydisturbs (l : ylabel) : bool :=
  match l with YEng LSpurious _ _ | YPool (LSubmit _ _ _ _) => true | YPool (LPrim _ ok) | YPool (LSec _ ok) => negb ok | _ => false end.
Definition ymay (l : ylabel) : bool := yat_work l || ydisturbs l.
Definition yhits (ls : list ylabel) : nat := length (filter ydisturbs ls).
Definition yresting (k : cfg) (s : peng) (a : actor) : Prop :=
  match a with
  | Caller => p_main (pe_s s) = QAsleep \/ p_main (pe_s s) = QIdle
  | InPool w => ~ In w (pe_who s) /\ match w with Prim i => c_def k <= i | Sec j => p_st (pe_p s) j = SExit end
  end.
Definition yround (c : pecfg) (k : cfg) (s : peng) (ls : list ylabel) : Prop :=
  forallb ymay ls = true /\ forall a, yresting k s a \/ yacted c k s ls a = true.
Inductive yrounds (c : pecfg) (k : cfg) : peng -> nat -> nat -> peng -> Prop :=
| yr_end s : yrounds c k s 0 0 s
| yr_next s ls s1 n m s2 : yrun c k s ls = Some s1 -> yround c k s ls -> yrounds c k s1 n m s2 -> yrounds c k s (S n) (yhits ls + m) s2.
(** The pool is initialised, not being destroyed, nobody else has a batch of executeWithTid open, and it has lost no task *)
Definition mine_only (c : pecfg) (k : cfg) (p : pool) : Prop :=
  PoolModel.p_init p = true /\ (forall i, i < c_def k -> p_stop p i = false) /\ (forall i u, p_lk p i = Some u -> u = pc_me c) /\ p_drop p = [].
(** Long tasks have a thread, or there are none *)
Definition ylong_ok (c : pecfg) (k : cfg) (p : pool) : Prop :=
  (exists j, sec_alive p j) \/ (c_max k <= 101 /\ forall e, In e (p_els (pc_c c)) -> pc_bind c e <> (-101)%Z).
