(** Timeouts: GElement::asyncRun, getAsyncResult, isTimeout, the loop of fatProcessor around them (src/GraphCtrl/GraphElement/GElement.cpp 242-256, 317-331, 535-564),
    GElementRepository::reset (GElementRepository.cpp 44-59) and GPipeline::run (GraphPipeline/GPipeline.cpp 56-77).
    The owner, a thread for each element, and a thread for each body handed to the pool interleave freely; a wait may expire at any time at which the body has not finished.
    Simplified: elements are numbered in the order of the repository's set, and each has one iteration (more are refused for elements with a timeout, 567-579; the loops of the others are in ElemModel);
    the engine may start any element at any time and need not start more once one has failed; elements inside groups only appear where they test whether they may start;
    cancel and suspend are left out (StateModel), so setup, which only pushes NORMAL after one of these, changes nothing; aspects are left out (ElemModel);
    the pool may start a body at any time. *)
From Verif Require Export ListUtil.
From Coq Require Export Lia Bool.
Local Open Scope list_scope.

(** No timeout, or one with a strategy; GElementDefine.h *)
Inductive strategy := Sync | AsError | HoldByPipeline | NoHold.
Definition strategy_eqb a b := match a, b with Sync, Sync | AsError, AsError | HoldByPipeline, HoldByPipeline | NoHold, NoHold => true | _, _ => false end.
(** How a body ends *)
Inductive outcome := ROk | RErr | RThrow.
Definition outcome_eqb a b := match a, b with ROk, ROk | RErr, RErr | RThrow, RThrow => true | _, _ => false end.
(** How a run ends *)
Inductive ending := EndOk | EndErr | EndThrow.
Inductive job := JNone | JQueued | JRunning | JDone (r : outcome).
Inductive tpc :=
| XNot             (* not started in this run *)
| XBody (j : nat)  (* in run(), as body number j *)
| XWait (j : nat)  (* in wait_for on body number j *)
| XHold            (* about to evaluate isHold; the status is OK *)
| XFin (ok : bool).
Inductive tph := POut | PGo | PReset (todo : list nat) (ok : bool).
Inductive tev :=
| TBegin | TEnd (x : ending)            (* run is called, run ends *)
| TBody (e j : nat)                     (* body number j of element e is called or handed to the pool *)
| TRet (j : nat) (r : outcome)          (* that body ends *)
| TUse (e j : nat) (r : outcome)        (* its end is taken note of in time *)
| TLate (e j : nat)                     (* it is found not to have ended in time *)
| TAgain (e : nat)                      (* isHold asks for a repetition *)
| TSkip (e : nat)                       (* the element gives up because of its state *)
| TCollect (e j : nat) (r : outcome) | TReset (e : nat)   (* reset has waited for the body; reset is done with the element *)
| TChild (c : nat) | TChildSkip (c : nat).   (* an element inside groups starts, or does not *)
(** [t_up e]: the groups around an element, from inside out. [t_late e]: its state is TIMEOUT. [t_fut e]: its async_result_. *)
Record tst := mkT { t_n : nat; t_strat : nat -> strategy; t_up : nat -> list nat; t_late : nat -> bool; t_fut : nat -> option nat; t_job : nat -> job; t_own : nat -> nat; t_next : nat; t_ph : tph; t_pc : nat -> tpc; t_log : list tev }.
Definition t_new (n : nat) (st : nat -> strategy) (up : nat -> list nat) : tst := mkT n st up (fun _ => false) (fun _ => None) (fun _ => JNone) (fun _ => 0) 0 POut (fun _ => XNot) [].
Inductive tlabel :=
| TLRun                  (* run is called *)
| TLOwner                (* next action of the owner *)
| TLElem (e : nat) (b : bool)     (* next action of an element; b: isHold / the wait expires *)
| TLJob (j : nat) (r : outcome)   (* a body starts, or ends as r says *)
| TLChild (c : nat).     (* an element inside groups tests whether it may start *)

Definition t_fin (p : tpc) : bool := match p with XFin _ => true | _ => false end.
Definition t_failed (p : tpc) : bool := match p with XFin false => true | _ => false end.
Definition t_idle (p : tpc) : bool := match p with XFin _ | XNot => true | _ => false end.
(** As in StateModel *)
Definition t_done (s : tst) : bool :=
  (forallb (fun e => t_fin (t_pc s e)) (seq 0 (t_n s)) || (existsb (fun e => t_failed (t_pc s e)) (seq 0 (t_n s)) && forallb (fun e => t_idle (t_pc s e)) (seq 0 (t_n s)))).
Definition t_ok (s : tst) : bool := forallb (fun e => negb (t_failed (t_pc s e))) (seq 0 (t_n s)).
(** GElement.cpp 317-331 *)
Definition is_timeout (s : tst) (e : nat) : bool := t_late s e || existsb (t_late s) (t_up s e).
(** run() is called (synchronously) or handed to the pool, 247, GElement.cpp 539-541. The old future is dropped without waiting. *)
Definition call_body (s : tst) (e : nat) (lg : list tev) : tst :=
  let j := t_next s in let sync := strategy_eqb (t_strat s e) Sync in
  mkT (t_n s) (t_strat s) (t_up s) (t_late s) (if sync then t_fut s else upd (t_fut s) e (Some j)) (upd (t_job s) j (if sync then JRunning else JQueued)) (upd (t_own s) j e) (S j) (t_ph s)
      (upd (t_pc s) e (if sync then XBody j else XWait j)) (TBody e j :: lg ++ t_log s).
Definition set_tpc s e p lg := mkT (t_n s) (t_strat s) (t_up s) (t_late s) (t_fut s) (t_job s) (t_own s) (t_next s) (t_ph s) (upd (t_pc s) e p) (lg ++ t_log s).
Definition set_ph s ph lg := mkT (t_n s) (t_strat s) (t_up s) (t_late s) (t_fut s) (t_job s) (t_own s) (t_next s) ph (t_pc s) (lg ++ t_log s).
Definition after (r : outcome) : tpc := match r with ROk => XHold | _ => XFin false end.
Definition in_go (p : tph) : bool := match p with PGo => true | _ => false end.
Definition t_step (s : tst) (l : tlabel) : option tst :=
  match l with
  | TLRun => match t_ph s with POut => Some (mkT (t_n s) (t_strat s) (t_up s) (t_late s) (t_fut s) (t_job s) (t_own s) (t_next s) PGo (fun _ => XNot) (TBegin :: t_log s)) | _ => None end
  | TLOwner =>
      match t_ph s with
      | POut => None
      | PGo => if t_done s then Some (set_ph s (PReset (filter (fun e => negb (strategy_eqb (t_strat s e) Sync)) (seq 0 (t_n s))) (t_ok s)) []) else None
      | PReset [] ok => Some (set_ph s POut [TEnd (if ok then EndOk else EndErr)])
      | PReset (e :: todo) ok => (* GElementRepository.cpp 46-55 *)
          let back := fun fut ok' lg => Some (mkT (t_n s) (t_strat s) (t_up s) (if is_timeout s e then upd (t_late s) e false else t_late s) fut (t_job s) (t_own s) (t_next s) (PReset todo ok') (t_pc s) (TReset e :: lg ++ t_log s)) in
          if strategy_eqb (t_strat s e) HoldByPipeline then
            match t_fut s e with
            | None => back (t_fut s) ok []
            | Some j =>
                match t_job s j with
                | JDone RThrow => (* get() throws, nothing catches it *)
                    Some (mkT (t_n s) (t_strat s) (t_up s) (t_late s) (upd (t_fut s) e None) (t_job s) (t_own s) (t_next s) POut (t_pc s) (TEnd EndThrow :: TCollect e j RThrow :: t_log s))
                | JDone r => back (upd (t_fut s) e None) (ok && outcome_eqb r ROk) [TCollect e j r]
                | _ => None
                end
            end
          else back (t_fut s) ok []
      end
  | TLElem e b =>
      if Nat.ltb e (t_n s) && in_go (t_ph s) then
        match t_pc s e with
        | XNot => if is_timeout s e then Some (set_tpc s e (XFin true) [TSkip e]) else Some (call_body s e [])
        | XBody j => match t_job s j with JDone r => Some (set_tpc s e (after r) [TUse e j r]) | _ => None end
        | XWait j =>
            match t_job s j with
            | JDone r => (* GElement.cpp 544-545 *)
                Some (mkT (t_n s) (t_strat s) (t_up s) (t_late s) (upd (t_fut s) e None) (t_job s) (t_own s) (t_next s) (t_ph s) (upd (t_pc s) e (after r)) (TUse e j r :: t_log s))
            | _ => if b then (* GElement.cpp 546-551 *)
                     if strategy_eqb (t_strat s e) AsError then Some (set_tpc s e (XFin false) [TLate e j])
                     else Some (mkT (t_n s) (t_strat s) (t_up s) (upd (t_late s) e true) (t_fut s) (t_job s) (t_own s) (t_next s) (t_ph s) (upd (t_pc s) e XHold) (TLate e j :: t_log s))
                   else None
            end
        | XHold => if b then Some (call_body s e [TAgain e]) else Some (set_tpc s e (XFin true) [])
        | XFin _ => None
        end
      else None
  | TLJob j r =>
      match t_job s j with
      | JQueued => Some (mkT (t_n s) (t_strat s) (t_up s) (t_late s) (t_fut s) (upd (t_job s) j JRunning) (t_own s) (t_next s) (t_ph s) (t_pc s) (t_log s))
      | JRunning => Some (mkT (t_n s) (t_strat s) (t_up s) (t_late s) (t_fut s) (upd (t_job s) j (JDone r)) (t_own s) (t_next s) (t_ph s) (t_pc s) (TRet j r :: t_log s))
      | _ => None
      end
  | TLChild c => if Nat.leb (t_n s) c then if is_timeout s c then Some (set_ph s (t_ph s) [TChildSkip c]) else Some (set_ph s (t_ph s) [TChild c]) else None
  end.
Fixpoint t_run (s : tst) (ls : list tlabel) : option tst :=
  match ls with [] => Some s | l :: r => match t_step s l with Some s' => t_run s' r | None => None end end.
