(** What pipelines on one thread pool owe each other and their callers *)
From Verif Require Export GraphSpec ShareModel EngLiveSpec DynProofs.
Local Open Scope nat_scope.
Local Open Scope list_scope.

(** Every pipeline is a well formed acyclic graph, and no element is in two of them *)
Definition separate (n : nat) (cs : nat -> dcfg) : Prop :=
  (forall q, q < n -> wf (c_g (cs q)) /\ acyclic (c_g (cs q)))
  /\ forall p q t, p < n -> q < n -> In t (els (c_g (cs p))) -> In t (els (c_g (cs q))) -> p = q.
(** The actions of the engine of pipeline [p] in a history of all *)
Definition own1 (n : nat) (cs : nat -> dcfg) (p : nat) (s : many) (l : ylabel) : list dlabel :=
  match l with
  | YDyn q l _ _ => if Nat.eqb q p then [l] else []
  | YPool l => match executes (y_p s) l with Some (_, t) => if memb t (els (c_g (cs p))) then [LPick (index_of t (d_pool (y_d s p)))] else [] | None => [] end
  end.
Fixpoint own_part (n : nat) (cs : nat -> dcfg) (k : cfg) (p : nat) (s : many) (ls : list ylabel) : list dlabel :=
  match ls with [] => [] | l :: r => match ystep n cs k s l with Some s1 => own1 n cs p s l ++ own_part n cs k p s1 r | None => [] end end.
(** The actions of the pool *)
Definition pool1y (cs : nat -> dcfg) (s : many) (l : ylabel) : list plabel :=
  match l with
  | YDyn q l busy a => match gives (y_d s q) l with Some e => [LSubmit e (c_bind (cs q) e) busy a] | None => [] end
  | YPool l => [l]
  end.
Fixpoint shared_part (n : nat) (cs : nat -> dcfg) (k : cfg) (s : many) (ls : list ylabel) : list plabel :=
  match ls with [] => [] | l :: r => match ystep n cs k s l with Some s1 => pool1y cs s l ++ shared_part n cs k s1 r | None => [] end end.
(** run of pipeline [p] is not called again after a failed run as long as tasks of that run are around *)
Definition orderly (n : nat) (cs : nat -> dcfg) (k : cfg) (ls : list ylabel) : Prop :=
  forall p, p < n -> disciplined (cs p) (d_init (cs p)) (own_part n cs k p (many_new cs) ls).

(** Who acts: the caller of run of a pipeline, or a thread of the pool *)
Inductive yactor := YCaller (q : nat) | YThread (w : thr).
Definition yacts (s : many) (l : ylabel) (a : yactor) : bool :=
  match l, a with
  | YDyn q (LMain _) _ _, YCaller r => Nat.eqb q r
  | YDyn q (LWork i _) _ _, YThread w => match nth_error (y_w s q) i with Some v => thr_eqb w v | None => false end
  | YPool (LPrim i _), YThread (Prim j) => Nat.eqb i j
  | YPool (LSec i _), YThread (Sec j) => Nat.eqb i j
  | _, _ => false
  end.
Fixpoint yacted (n : nat) (cs : nat -> dcfg) (k : cfg) (s : many) (ls : list ylabel) (a : yactor) : bool :=
  match ls with [] => false | l :: r => yacts s l a || match ystep n cs k s l with Some s1 => yacted n cs k s1 r a | None => false end end.
Definition yat_work (l : ylabel) : bool :=
  match l with YDyn _ (LMain _) _ _ | YDyn _ (LWork _ _) _ _ => true | YPool (LPrim _ ok) | YPool (LSec _ ok) => ok | _ => false end.
(** What may disturb: as for one pipeline *)
Definition ydisturbs (l : ylabel) : bool :=
  match l with YDyn _ LSpurious _ _ | YPool (LSubmit _ _ _ _) => true | YPool (LPrim _ ok) | YPool (LSec _ ok) => negb ok | _ => false end.
Definition ymay (l : ylabel) : bool := yat_work l || ydisturbs l.
Definition yhits (ls : list ylabel) : nat := length (filter ydisturbs ls).
Definition yresting (n : nat) (k : cfg) (s : many) (a : yactor) : Prop :=
  match a with
  | YCaller q => n <= q \/ d_main (y_d s q) = MAsleep \/ d_main (y_d s q) = MIdle
  | YThread w => (forall q, q < n -> ~ In w (y_w s q)) /\ match w with Prim i => c_def k <= i | Sec j => p_st (y_p s) j = SExit end
  end.
(** A round: everyone, of every pipeline and of the pool, who is not resting at its beginning acts at least once *)
Definition yfair_round (n : nat) (cs : nat -> dcfg) (k : cfg) (s : many) (ls : list ylabel) : Prop :=
  forallb ymay ls = true /\ forall a, yresting n k s a \/ yacted n cs k s ls a = true.
(** [r] rounds with [m] disturbances altogether *)
Inductive yfair_rounds (n : nat) (cs : nat -> dcfg) (k : cfg) : many -> nat -> nat -> many -> Prop :=
| yf_end s : yfair_rounds n cs k s 0 0 s
| yf_next s ls s1 r m s2 : yrun n cs k s ls = Some s1 -> yfair_round n cs k s ls -> yfair_rounds n cs k s1 r m s2 -> yfair_rounds n cs k s (S r) (yhits ls + m) s2.
