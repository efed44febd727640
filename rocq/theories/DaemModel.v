(** The daemons of a pipeline from init to the destructor: GDaemonManager (src/GraphCtrl/GraphDaemon/GDaemonManager.cpp), GDaemon::init and destroy (GDaemon.cpp 13-28), GPipeline::init, destroy and ~GPipeline
    (src/GraphCtrl/GraphPipeline/GPipeline.cpp 26-33, 37-53, 81-103). Each daemon has a timer, which is that of TimerModel; its thread interleaves freely with the user of the pipeline and the other daemons.
    Simplified: of the other parts of init and destroy only whether they fail, before or after the daemons are reached. The set of daemons is walked in the order of their numbers. No daemon is added after init
    (addGDaemon refuses that, GPipeline.inl 203). One user of the pipeline at a time. *)
From Verif Require Export TimerModel.
Local Open Scope nat_scope.
Local Open Scope list_scope.

(** Where the user of the pipeline is. *)
Inductive dphase :=
| DOut
| DStarting (k : nat) (v : bool)        (* in init, before daemon k; v: all else is fine *)
| DStopping (k : nat) (v : bool)        (* in destroy, before daemon k *)
| DStopWait (k : nat) (v : bool)        (* in destroy, in stop of daemon k *)
| DDeleting (k : nat)                   (* in the destructor, before daemon k *)
| DDelStop (k : nat)                    (* the destructors of daemon k have begun; ~UTimer is not called yet *)
| DDelWait (k : nat)                    (* in ~UTimer of daemon k *)
| DGone.                                (* the pipeline is deleted *)
(** What the user did: calls that returned, newest first. *)
Inductive dcall := CInit (ok : bool) | CInitEarly | CDestroy (ok : bool) | CDestroyEarly | CDelete.
Record dst := mkDs { d_init : bool; d_main : dphase; d_ts : nat -> timer; d_dead : nat -> bool; d_log : list dcall }.
Definition dst_new : dst := mkDs false DOut (fun _ => timer_new) (fun _ => false) [].
Inductive dlab :=
| DlInit (early late : bool)            (* init; early: initEnv fails (GPipeline.cpp 43-44); late: something after it fails *)
| DlDestroy (early late : bool)         (* destroy; early: the repository or the schedule fails (GPipeline.cpp 91-93); late: something after that fails *)
| DlDelete                              (* the pipeline is deleted *)
| DlNext                                (* the next action of the call in progress *)
| DlThread (k : nat) (woke timeout : bool)
| DlTask (k : nat) (span ms : Z) (threw : bool).
(** [DUndef]: a daemon executes its task and its destructor at once: its members are gone, its virtual functions are those of the base class. *)
Inductive dout := DTo (s : dst) | DNo | DUndef.

Section D.
Variable n : nat.                       (* daemons *)
Variable iv : nat -> Z.                 (* their intervals *)
Definition set_t (s : dst) (m : dphase) (k : nat) (t : timer) : dst := mkDs (d_init s) m (upd (d_ts s) k t) (d_dead s) (d_log s).
(** An action of the user on the timer of daemon [k]; then at [m]. *)
Definition act (s : dst) (k : nat) (l : tlabel) (m : timer -> dphase) : dout := match timer_step (d_ts s k) l with Some t => DTo (set_t s (m t) k t) | None => DNo end.
(** An action of the thread of daemon [k]. *)
Definition thread (s : dst) (k : nat) (l : tlabel) : dout :=
  if k <? n then
    match timer_step (d_ts s k) l with
    | Some t => match t_pc t with TShot => if d_dead s k then DUndef else DTo (set_t s (d_main s) k t) | _ => DTo (set_t s (d_main s) k t) end
    | None => DNo
    end
  else DNo.
Definition returned (s : dst) (i : bool) (c : dcall) : dst := mkDs i DOut (d_ts s) (d_dead s) (c :: d_log s).
Definition at_ (s : dst) (m : dphase) : dst := mkDs (d_init s) m (d_ts s) (d_dead s) (d_log s).
Definition dstep (s : dst) (l : dlab) : dout :=
  match l with
  | DlInit early late => (* GPipeline.cpp 37-53 *)
      match d_main s with
      | DOut => if d_init s then DTo (returned s true CInitEarly) else if early then DTo (returned s false CInitEarly) else DTo (at_ s (DStarting 0 (negb late)))
      | _ => DNo
      end
  | DlDestroy early late => (* GPipeline.cpp 81-103 *)
      match d_main s with
      | DOut => if negb (d_init s) then DTo (returned s false CDestroyEarly) else if early then DTo (returned s true CDestroyEarly) else DTo (at_ s (DStopping 0 (negb late)))
      | _ => DNo
      end
  | DlDelete => match d_main s with DOut => DTo (at_ s (DDeleting 0)) | _ => DNo end
  | DlNext =>
      match d_main s with
      | DStarting k v => if k <? n then act s k (LtStart (iv k)) (fun _ => DStarting (S k) v) else DTo (returned s v (CInit v))       (* GDaemonManager.cpp 18-26; GDaemon.cpp 13-21 *)
      | DStopping k v => (* GDaemonManager.cpp 29-37; GDaemon.cpp 24-28; a timer that is stopped returns at once *)
          if k <? n then act s k LtStop (fun t => match t_user t with UOut => DStopping (S k) v | _ => DStopWait k v end) else DTo (returned s (negb v) (CDestroy v))
      | DStopWait k v => match t_user (d_ts s k) with UNotify => act s k LtNotify (fun _ => DStopWait k v) | _ => act s k LtJoin (fun _ => DStopping (S k) v) end
      | DDeleting k => (* GPipeline.cpp 28, GDaemonManager.cpp 60-68: delete of daemon k *)
          if k <? n then match t_pc (d_ts s k) with TShot => DUndef | _ => DTo (mkDs (d_init s) (DDelStop k) (d_ts s) (upd (d_dead s) k true) (d_log s)) end
          else DTo (mkDs (d_init s) DGone (d_ts s) (d_dead s) (CDelete :: d_log s))
      | DDelStop k => act s k LtStop (fun t => match t_user t with UOut => DDeleting (S k) | _ => DDelWait k end)                     (* UTimer.h 18-20 *)
      | DDelWait k => match t_user (d_ts s k) with UNotify => act s k LtNotify (fun _ => DDelWait k) | _ => act s k LtJoin (fun _ => DDeleting (S k)) end
      | DOut | DGone => DNo
      end
  | DlThread k w t => thread s k (LtThread w t)
  | DlTask k sp ms th => thread s k (LtTask sp ms th)
  end.
Fixpoint drun (s : dst) (ls : list dlab) : dout := match ls with [] => DTo s | l :: r => match dstep s l with DTo s' => drun s' r | o => o end end.
End D.
