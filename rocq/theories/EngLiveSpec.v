(** When a run of the dynamic engine on the pool ends: who acts, and what a fair schedule is *)
From Verif Require Export EngPoolSpec PoolSpec.
Local Open Scope nat_scope.
Local Open Scope list_scope.

(** The thread that called run, or a thread of the pool *)
Inductive actor := Caller | InPool (w : thr).
(** Who takes a step *)
Definition acts (s : eng) (l : elabel) (a : actor) : bool :=
  match l, a with
  | EDyn (LMain _) _ _, Caller => true
  | EDyn (LWork i _) _ _, InPool w => match nth_error (e_who s) i with Some v => thr_eqb w v | None => false end
  | EPool (LPrim i _), InPool (Prim j) => Nat.eqb i j
  | EPool (LSec i _), InPool (Sec j) => Nat.eqb i j
  | _, _ => false
  end.
Fixpoint acted (c : dcfg) (k : cfg) (s : eng) (ls : list elabel) (a : actor) : bool :=
  match ls with [] => false | l :: r => acts s l a || match estep c k s l with Some s1 => acted c k s1 r a | None => false end end.
(** The caller of run and the threads of the pool act, and attempts to look into a queue succeed *)
Definition at_work (l : elabel) : bool :=
  match l with EDyn (LMain _) _ _ | EDyn (LWork _ _) _ _ => true | EPool (LPrim _ ok) | EPool (LSec _ ok) => ok | _ => false end.
(** What may disturb: an attempt to look into a queue fails, the caller is woken for no reason, somebody else gives a task to the pool *)
Definition disturbs (l : elabel) : bool :=
  match l with EDyn LSpurious _ _ | EPool (LSubmit _ _ _ _) => true | EPool (LPrim _ ok) | EPool (LSec _ ok) => negb ok | _ => false end.
Definition may_happen (l : elabel) : bool := at_work l || disturbs l.
Definition hits (ls : list elabel) : nat := length (filter disturbs ls).
(** Someone who has nothing to do, or does not exist *)
Definition resting (k : cfg) (s : eng) (a : actor) : Prop :=
  match a with
  | Caller => d_main (e_d s) = MAsleep \/ d_main (e_d s) = MIdle
  | InPool w => ~ In w (e_who s) /\ match w with Prim i => c_def k <= i | Sec j => p_st (e_p s) j = SExit end
  end.
(** A round: everyone who is not resting at its beginning acts at least once *)
Definition fair_round (c : dcfg) (k : cfg) (s : eng) (ls : list elabel) : Prop :=
  forallb may_happen ls = true /\ forall a, resting k s a \/ acted c k s ls a = true.
(** [n] rounds with [m] disturbances altogether *)
Inductive fair_rounds (c : dcfg) (k : cfg) : eng -> nat -> nat -> eng -> Prop :=
| fr_end s : fair_rounds c k s 0 0 s
| fr_next s ls s1 n m s2 : erun c k s ls = Some s1 -> fair_round c k s ls -> fair_rounds c k s1 n m s2 -> fair_rounds c k s (S n) (hits ls + m) s2.
(** The pool is initialised, not being destroyed, no batch of executeWithTid is open, and it has lost no task *)
Definition pool_ready (k : cfg) (p : pool) : Prop :=
  p_init p = true /\ (forall i, i < c_def k -> p_stop p i = false) /\ (forall i, p_lk p i = None) /\ p_drop p = [].
(** Long tasks have a thread, or there are none: with more than 101 threads the running index may look like that of a long task, C41 *)
Definition long_ok (c : dcfg) (k : cfg) (p : pool) : Prop :=
  (exists j, sec_alive p j) \/ (c_max k <= 101 /\ forall e, In e (els (c_g c)) -> c_bind c e <> (-101)%Z).
