(** The timer of a daemon, src/UtilsCtrl/Timer/UTimer.h; GDaemon::init and destroy (src/GraphCtrl/GraphDaemon/GDaemon.cpp 13-28) are start and stop.
    One user of the timer and the timer's thread interleave freely. Several users at once are not modelled: start and stop write future_ without a lock. *)
From Verif Require Export ListUtil.
From Coq Require Export ZArith Lia.
Local Open Scope Z_scope.
Local Open Scope list_scope.

(** The thread made by start, UTimer.h 46-71 *)
Inductive tpc :=
| TNone            (* no thread *)
| TTest            (* about to test is_stop_, 47 *)
| TEnter           (* about to lock and wait, UTimer.h 48-49 *)
| TSleep (woken : bool)   (* in wait_for; woken: notified *)
| TCheck           (* timed out, about to test is_stop_, 50 *)
| TShot            (* in task() or modify(), UTimer.h 52-53 *)
| TEnd             (* finished: the future is ready *)
| TThrew.          (* task or modify threw: the exception is in the future, which is ready; the loop is over *)
(** The user: outside, in stop before notify_one (82), or waiting for the future (83) *)
Inductive tuser := UOut | UNotify | UJoin.
Inductive tev := EStart (iv : Z) | ESleep (iv : Z) | EShot | EDone (span ms : Z) | EStopReq | EStopRet.
Record timer := mkTimer { t_stop : bool; t_origin : Z; t_left : Z; t_pc : tpc; t_user : tuser; t_log : list tev }.  (* log: newest first *)
Definition timer_new : timer := mkTimer true 0 0 TNone UOut [].
Inductive tlabel :=
| LtStart (iv : Z)         (* start *)
| LtStop                   (* stop up to the exchange, 78 *)
| LtNotify                 (* notify_one, 82 *)
| LtJoin                   (* the future is ready, stop returns, 83 *)
| LtThread (woke timeout : bool)   (* next action of the thread; in wait_for: timeout, or a wake-up by notification or for no reason *)
| LtTask (span ms : Z) (threw : bool).   (* task and modify end: the time they took together, what modify returned *)
(** The interval until the next shot, UTimer.h 54-67 *)
Definition next_left (origin span ms : Z) : Z := if 0 <? ms then ms else if span <? origin then origin - span else origin.
Definition timer_step (s : timer) (l : tlabel) : option timer :=
  match l with
  | LtStart iv => (* UTimer.h 33-45 *)
      match t_user s with
      | UOut => if t_stop s then
                  match t_pc s with
                  | TNone | TEnd | TThrew => Some (mkTimer false iv iv TTest UOut (EStart iv :: t_log s))
                  | _ => None        (* would wait for the old thread; not reachable with one user *)
                  end
                else Some s
      | _ => None
      end
  | LtStop => match t_user s with
              | UOut => if t_stop s then Some s else Some (mkTimer true (t_origin s) (t_left s) (t_pc s) UNotify (EStopReq :: t_log s))
              | _ => None
              end
  | LtNotify => match t_user s with
                | UNotify => Some (mkTimer (t_stop s) (t_origin s) (t_left s) (match t_pc s with TSleep _ => TSleep true | x => x end) UJoin (t_log s))
                | _ => None
                end
  | LtJoin => match t_user s, t_pc s with
              | UJoin, TEnd | UJoin, TThrew => Some (mkTimer (t_stop s) (t_origin s) (t_left s) (t_pc s) UOut (EStopRet :: t_log s))
              | _, _ => None
              end
  | LtThread woke timeout =>
      match t_pc s with
      | TTest => Some (mkTimer (t_stop s) (t_origin s) (t_left s) (if t_stop s then TEnd else TEnter) (t_user s) (t_log s))
      | TEnter => Some (mkTimer (t_stop s) (t_origin s) (t_left s) (TSleep false) (t_user s) (ESleep (t_left s) :: t_log s))
      | TSleep w => if timeout then Some (mkTimer (t_stop s) (t_origin s) (t_left s) TCheck (t_user s) (t_log s))
                    else if w || woke then Some (mkTimer (t_stop s) (t_origin s) (t_left s) TTest (t_user s) (t_log s)) else None
      | TCheck => if t_stop s then Some (mkTimer (t_stop s) (t_origin s) (t_left s) TTest (t_user s) (t_log s))
                  else Some (mkTimer (t_stop s) (t_origin s) (t_left s) TShot (t_user s) (EShot :: t_log s))
      | _ => None
      end
  | LtTask span ms threw =>
      match t_pc s with
      | TShot => if threw then Some (mkTimer (t_stop s) (t_origin s) (t_left s) TThrew (t_user s) (t_log s))
                 else Some (mkTimer (t_stop s) (t_origin s) (next_left (t_origin s) span ms) TTest (t_user s) (EDone span ms :: t_log s))
      | _ => None
      end
  end.
Fixpoint timer_run (s : timer) (ls : list tlabel) : option timer :=
  match ls with [] => Some s | l :: r => match timer_step s l with Some s' => timer_run s' r | None => None end end.
