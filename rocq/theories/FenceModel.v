(** GFence (src/GraphCtrl/GraphElement/GAdapter/GFence/GFence.cpp) next to the elements with timeouts of TimeoutModel.
    A fence is an element whose run() takes the result of other elements' latest body, waiting for it if necessary.
    Simplified: the dependencies of a fence are given as the elements it comes after (directly or not); fences have no timeout themselves;
    statuses are reduced as in TimeoutModel. *)
From Verif Require Export TimeoutModel.
Local Open Scope nat_scope.
Local Open Scope list_scope.

Inductive fpc :=
| FNot                                  (* not started in this run *)
| FAt (todo : list nat) (ok : bool)     (* in run(), about to use async_result_ of the first of todo *)
| FDone (ok : bool).
Inductive fev :=
| FGot (f e j : nat) (r : outcome)      (* the fence has taken the result of body j of e *)
| FPass (f e : nat)                     (* async_result_ of e is not valid: the fence goes on *)
| FEnd (f : nat) (ok : bool).
(** [f_n]: number of fences. [f_wait f]: fence_elements_, in the order of the set. [f_after f]: the elements that the fence depends on. *)
Record fst_ := mkF { f_t : tst; f_n : nat; f_wait : nat -> list nat; f_after : nat -> list nat; f_pc : nat -> fpc; f_log : list fev }.
Definition f_new (n : nat) (st : nat -> strategy) (up : nat -> list nat) (nf : nat) (wt af : nat -> list nat) : fst_ :=
  mkF (t_new n st up) nf wt af (fun _ => FNot) [].
Inductive flabel := FL (l : tlabel) | FStep (f : nat).

Definition f_fin (p : fpc) : bool := match p with FDone _ => true | _ => false end.
Definition f_bad (p : fpc) : bool := match p with FDone false => true | _ => false end.
Definition f_idle (p : fpc) : bool := match p with FAt _ _ => false | _ => true end.
Definition f_all (s : fst_) (q : fpc -> bool) : bool := forallb (fun f => q (f_pc s f)) (seq 0 (f_n s)).
Definition f_none_bad (s : fst_) : bool := f_all s (fun p => negb (f_bad p)).
(** The engine has come to its end: everything was executed, or something failed and nothing is being executed (as t_done, with the fences). *)
Definition f_done (s : fst_) : bool :=
  (forallb (fun e => t_fin (t_pc (f_t s) e)) (seq 0 (t_n (f_t s))) && f_all s f_fin)
  || ((negb (t_ok (f_t s)) || negb (f_none_bad s)) && forallb (fun e => t_idle (t_pc (f_t s) e)) (seq 0 (t_n (f_t s))) && f_all s f_idle).
Definition set_t (s : fst_) (t : tst) : fst_ := mkF t (f_n s) (f_wait s) (f_after s) (f_pc s) (f_log s).
Definition set_fpc (s : fst_) (t : tst) (f : nat) (p : fpc) (lg : list fev) : fst_ := mkF t (f_n s) (f_wait s) (f_after s) (upd (f_pc s) f p) (lg ++ f_log s).
Definition take_fut (t : tst) (e : nat) : tst := mkT (t_n t) (t_strat t) (t_up t) (t_late t) (upd (t_fut t) e None) (t_job t) (t_own t) (t_next t) (t_ph t) (t_pc t) (t_log t).
(** One action. The steps of the others are those of TimeoutModel, except that a new run starts the fences afresh, and that the end of the engine's run (GPipeline.cpp 56-77) looks at the fences too.
    GFence::run, GFence.cpp 63-72, with GElement::getAsyncResult, GElement.cpp 555-564; an exception of get() leaves run() and is turned into an error status by fatProcessor (GElement.cpp 281-284). *)
Definition f_step (s : fst_) (l : flabel) : option fst_ :=
  match l with
  | FL TLRun => match t_step (f_t s) TLRun with Some t => Some (mkF t (f_n s) (f_wait s) (f_after s) (fun _ => FNot) (f_log s)) | None => None end
  | FL TLOwner =>
      match t_ph (f_t s) with
      | PGo => if f_done s then Some (set_t s (set_ph (f_t s) (PReset (filter (fun e => negb (strategy_eqb (t_strat (f_t s) e) Sync)) (seq 0 (t_n (f_t s)))) (t_ok (f_t s) && f_none_bad s)) [])) else None
      | _ => match t_step (f_t s) TLOwner with Some t => Some (set_t s t) | None => None end
      end
  | FL l => match t_step (f_t s) l with Some t => Some (set_t s t) | None => None end
  | FStep f =>
      if Nat.ltb f (f_n s) && in_go (t_ph (f_t s)) then
        match f_pc s f with
        | FNot => if forallb (fun e => match t_pc (f_t s) e with XFin true => true | _ => false end) (f_after s f) then Some (set_fpc s (f_t s) f (FAt (f_wait s f) true) []) else None
        | FAt [] ok => Some (set_fpc s (f_t s) f (FDone ok) [FEnd f ok])
        | FAt (e :: r) ok =>
            match t_fut (f_t s) e with
            | None => Some (set_fpc s (f_t s) f (FAt r ok) [FPass f e])
            | Some j =>
                match t_job (f_t s) j with
                | JDone RThrow => Some (set_fpc s (take_fut (f_t s) e) f (FDone false) [FEnd f false; FGot f e j RThrow])
                | JDone x => Some (set_fpc s (take_fut (f_t s) e) f (FAt r (ok && outcome_eqb x ROk)) [FGot f e j x])
                | _ => None
                end
            end
        | FDone _ => None
        end
      else None
  end.
Fixpoint f_run (s : fst_) (ls : list flabel) : option fst_ :=
  match ls with [] => Some s | l :: r => match f_step s l with Some s' => f_run s' r | None => None end end.

(** The threads that are using async_result_ of [e] now: the element itself (asyncRun, GElement.cpp 539-545), a fence, the reset after a run (GElementRepository.cpp 49). All of them may modify it. *)
Inductive who := WElem | WFence (f : nat) | WReset.
Definition uses (s : fst_) (e : nat) (w : who) : Prop :=
  match w with
  | WElem => e < t_n (f_t s) /\ t_ph (f_t s) = PGo /\ exists j, t_pc (f_t s) e = XWait j
  | WFence f => f < f_n s /\ exists r ok, f_pc s f = FAt (e :: r) ok
  | WReset => exists r ok, t_ph (f_t s) = PReset (e :: r) ok /\ t_strat (f_t s) e = HoldByPipeline
  end.
