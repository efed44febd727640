(** Events: src/GraphCtrl/GraphEvent/GEvent.cpp, GEventManager.cpp, GEventManager.inl, and the places of GPipeline.cpp that drive them.
    The thread that owns the pipeline, any number of notifying threads (elements, aspects, daemons) and the pool interleave freely.
    Simplified: init and destroy of the events themselves succeed (their statuses belong to PipeModel); trigger does not throw in the
    SYNC case (ASYNC: the exception stays in the future, which nobody reads, and the trigger counts as done). *)
From Verif Require Export ListUtil.
From Coq Require Export Lia Bool.
Local Open Scope list_scope.

(** GEventDefine.h 26-33 *)
Inductive strat := RunFinish | OnDestroy | NoWait.
(** A trigger handed to the pool. Dropped: the pool was deleted with the task in a queue; its future becomes ready (broken promise). *)
Inductive tstat := TNot | TQueued | TRunning | TDone | TDropped.
Inductive evlog :=
| GInit | GElems | GRunRet | GDestroyCall | GDestroyRet | GDeleted
| GCall (t k : nat) (g : strat)    (* an asynchronous notify (or asyncNotify) of event k has handed task t to the pool *)
| GSent (t k : nat) (g : strat)    (* that call has returned OK *)
| GSync (k : nat)                  (* a synchronous notify has triggered event k and returned OK *)
| GErr (k : nat)                   (* notify of k was refused *)
| GTrig (t k : nat).               (* the trigger function of event k was executed for task t *)
Inductive ephase :=
| PhOff                            (* not initialised *)
| PhReady
| PhRun                            (* the engine is running elements *)
| PhRWait (todo : list nat) (cur : option (nat * list nat))   (* GEventManager::reset: events still to be waited for; event whose lock is held, futures still to be waited for *)
| PhDown                           (* GPipeline::destroy before schedule_.destroy() *)
| PhDWait (todo : list nat) (cur : option (nat * list nat))   (* GEventManager::destroy *)
| PhGone.                          (* the pipeline was deleted *)
Record evst := mkEv { v_keys : list nat; v_unique : bool; v_pool : bool;   (* v_pool: the pool exists *)
                      v_ph : ephase; v_task : nat -> tstat; v_ev : nat -> nat; v_next : nat;
                      v_pend : list (nat * strat);    (* committed, future not stored yet: GEvent.cpp 65-79 *)
                      v_rf : nat -> list nat; v_de : nat -> list nat; v_log : list evlog }.   (* log: newest first *)
Definition ev_new (keys : list nat) (unique : bool) : evst := mkEv keys unique (negb unique) PhOff (fun _ => TNot) (fun _ => 0) 0 [] (fun _ => []) (fun _ => []) [].
Inductive evout := ENext (s : evst) | EUB | ENo.

Definition with_ph s ph lg := mkEv (v_keys s) (v_unique s) (v_pool s) ph (v_task s) (v_ev s) (v_next s) (v_pend s) (v_rf s) (v_de s) (lg ++ v_log s).
Inductive evlabel :=
| VInit | VRun | VElems | VWait | VDestroy | VPoolDown | VDelete
| VNotify (k : nat) (sync : bool) (g : strat) | VStore (t : nat) | VStart (t : nat) | VFinish (t : nat).
Definition ready_fut (x : tstat) : bool := match x with TDone | TDropped => true | _ => false end.
Definition strat_eqb a b := match a, b with RunFinish, RunFinish | OnDestroy, OnDestroy | NoWait, NoWait => true | _, _ => false end.
(** the lock a strategy needs is taken by the waiting thread: GEvent.cpp 74, 77, 87, 95 *)
Definition locked (ph : ephase) (k : nat) (g : strat) : bool :=
  match ph, g with
  | PhRWait _ (Some (k', _)), RunFinish => Nat.eqb k k'
  | PhDWait _ (Some (k', _)), OnDestroy => Nat.eqb k k'
  | _, _ => false
  end.
Definition ev_step (s : evst) (l : evlabel) : evout :=
  match l with
  | VInit => (* GPipeline.cpp 36-53, initEnv 359-375: the pool is made; GEvent::fatInit 23-30: lists cleared *)
      match v_ph s with
      | PhOff => ENext (mkEv (v_keys s) (v_unique s) true PhReady (v_task s) (v_ev s) (v_next s) (v_pend s) (fun _ => []) (fun _ => []) (GInit :: v_log s))
      | _ => ENo
      end
  | VRun => match v_ph s with PhReady => ENext (with_ph s PhRun []) | _ => ENo end     (* GPipeline.cpp 56-72 *)
  | VElems => match v_ph s with PhRun => ENext (with_ph s (PhRWait (v_keys s) None) [GElems]) | _ => ENo end   (* GPipeline.cpp 72-73: the engine has returned *)
  | VWait => (* GEvent::asyncWait GEvent.cpp 85-106 for each event: GEventManager.cpp 83-89, 25-31 with GEvent::fatDestroy 33-42 *)
      match v_ph s with
      | PhRWait [] None => ENext (with_ph s PhReady [GRunRet])
      | PhRWait (k :: r) None => ENext (with_ph s (PhRWait r (Some (k, v_rf s k))) [])
      | PhRWait r (Some (k, t :: w)) => if ready_fut (v_task s t) then ENext (with_ph s (PhRWait r (Some (k, w))) []) else ENo
      | PhRWait r (Some (k, [])) =>
          ENext (mkEv (v_keys s) (v_unique s) (v_pool s) (PhRWait r None) (v_task s) (v_ev s) (v_next s) (v_pend s) (upd (v_rf s) k []) (v_de s) (v_log s))
      | PhDWait [] None => ENext (with_ph s PhOff [GDestroyRet])
      | PhDWait (k :: r) None => ENext (with_ph s (PhDWait r (Some (k, v_de s k))) [])
      | PhDWait r (Some (k, t :: w)) => if ready_fut (v_task s t) then ENext (with_ph s (PhDWait r (Some (k, w))) []) else ENo
      | PhDWait r (Some (k, [])) =>
          ENext (mkEv (v_keys s) (v_unique s) (v_pool s) (PhDWait r None) (v_task s) (v_ev s) (v_next s) (v_pend s) (upd (v_rf s) k []) (upd (v_de s) k []) (v_log s))
      | _ => ENo
      end
  | VDestroy => match v_ph s with PhReady => ENext (with_ph s PhDown [GDestroyCall]) | _ => ENo end
  | VPoolDown => (* GPipeline.cpp 91, GSchedule.cpp 35-44: a pool of its own is deleted; UThreadPool::destroy waits for the tasks being executed and drops those in the queues of
                    primary threads and in the common queue (PoolProps2.C70_partial) *)
      match v_ph s with
      | PhDown =>
          if v_unique s then
            if existsb (fun t => match v_task s t with TRunning => true | _ => false end) (seq 0 (v_next s)) then ENo
            else ENext (mkEv (v_keys s) (v_unique s) false (PhDWait (v_keys s) None) (fun t => match v_task s t with TQueued => TDropped | x => x end) (v_ev s) (v_next s) (v_pend s) (v_rf s) (v_de s) (v_log s))
          else ENext (with_ph s (PhDWait (v_keys s) None) [])
      | _ => ENo
      end
  | VDelete => (* ~GPipeline GPipeline.cpp 26-33: the events are deleted, then the pool of its own (as a member) *)
      match v_ph s with PhOff | PhReady => ENext (with_ph s PhGone [GDeleted]) | _ => ENo end
  | VNotify k sync g =>
      match v_ph s with
      | PhGone => EUB
      | _ =>
          if memb k (v_keys s) then
            if sync then ENext (with_ph s (v_ph s) [GSync k])                 (* GEventManager.cpp 44-54, GEvent.cpp 49-50 *)
            else if v_pool s then                                            (* GEvent.cpp 64-68 *)
              ENext (mkEv (v_keys s) (v_unique s) (v_pool s) (v_ph s) (upd (v_task s) (v_next s) TQueued) (upd (v_ev s) (v_next s) k) (S (v_next s)) ((v_next s, g) :: v_pend s) (v_rf s) (v_de s) (GCall (v_next s) k g :: v_log s))
            else EUB                                                         (* thread_pool_ points to the deleted pool *)
          else ENext (with_ph s (v_ph s) [GErr k])
      end
  | VStore t => (* GEvent.cpp 70-81 *)
      match find (fun p => Nat.eqb (fst p) t) (v_pend s) with
      | None => ENo
      | Some (_, g) =>
          let k := v_ev s t in
          match v_ph s with
          | PhGone => EUB
          | _ =>
              if locked (v_ph s) k g then ENo
              else ENext (mkEv (v_keys s) (v_unique s) (v_pool s) (v_ph s) (v_task s) (v_ev s) (v_next s) (filter (fun p => negb (Nat.eqb (fst p) t)) (v_pend s))
                          (if strat_eqb g RunFinish then upd (v_rf s) k (v_rf s k ++ [t]) else v_rf s) (if strat_eqb g OnDestroy then upd (v_de s) k (v_de s k ++ [t]) else v_de s)
                          (GSent t k g :: v_log s))
          end
      end
  | VStart t => (* the pool takes the task and calls trigger on the event *)
      match v_task s t with
      | TQueued => match v_ph s with
                   | PhGone => EUB
                   | _ => ENext (mkEv (v_keys s) (v_unique s) (v_pool s) (v_ph s) (upd (v_task s) t TRunning) (v_ev s) (v_next s) (v_pend s) (v_rf s) (v_de s) (v_log s))
                   end
      | _ => ENo
      end
  | VFinish t =>
      match v_task s t with
      | TRunning => match v_ph s with
                    | PhGone => EUB
                    | _ => ENext (mkEv (v_keys s) (v_unique s) (v_pool s) (v_ph s) (upd (v_task s) t TDone) (v_ev s) (v_next s) (v_pend s) (v_rf s) (v_de s) (GTrig t (v_ev s t) :: v_log s))
                    end
      | _ => ENo
      end
  end.
Fixpoint ev_run (s : evst) (ls : list evlabel) : evout :=
  match ls with [] => ENext s | l :: r => match ev_step s l with ENext s' => ev_run s' r | o => o end end.
