(** A timer used by several threads: start and stop of src/UtilsCtrl/Timer/UTimer.h 33-72 and 77-84 in any number of threads, and the timer threads they make.
    TimerModel (C47) has one user and time; here there are many users and no time: a timer thread may wake at any moment, by its
    timeout or otherwise. Simplified: the task does not throw (C74), and start and stop access the future in one step each. *)
From Coq Require Export List Arith Bool.
From Verif Require Export ListUtil.
Export ListNotations.
Local Open Scope nat_scope.
Local Open Scope list_scope.

(** Where a user is: in no call; in start past the exchange (34), past the intervals (38-39), with timer thread [w] made but not yet
    assigned (45); in stop past the exchange (78), past notify (82). *)
Inductive cpc := PIdle | A1 | A2 | A3 (w : nat) | B1 | B2.
(** Where a timer thread is: at the test of the loop (46), waiting (48), awake by timeout (49), in the task (51), ended. *)
Inductive kpc := K0 | K1 | K2 | K3 | KEnd.
(** The members of UTimer that matter here (87-90); [q_n] timer threads were made, numbered from 0. *)
Record qst := mkQ { q_stop : bool; q_fut : option nat; q_n : nat; q_work : nat -> kpc; q_pc : nat -> cpc }.
(** A new timer: is_stop_ is true (87), the future is empty (90). *)
Definition q_new : qst := mkQ true None 0 (fun _ => KEnd) (fun _ => PIdle).
(** Thread [t] calls start or stop, or goes on; timer thread [w] goes on, [b]: its wait timed out. *)
Inductive qlab := Start (t : nat) | Stop (t : nat) | Go (t : nat) | Work (w : nat) (b : bool).
(** [QUndef]: wait on an empty future. [QStuck]: this cannot happen now. *)
Inductive qout := QRun (s : qst) | QUndef | QStuck.
(** Changes of single parts of the state, for the steps below. *)
Definition at_pc (s : qst) (t : nat) (p : cpc) : qst := mkQ (q_stop s) (q_fut s) (q_n s) (q_work s) (upd (q_pc s) t p).
Definition put_stop (s : qst) (b : bool) : qst := mkQ b (q_fut s) (q_n s) (q_work s) (q_pc s).
Definition put_fut (s : qst) (w : nat) : qst := mkQ (q_stop s) (Some w) (q_n s) (q_work s) (q_pc s).
Definition put_work (s : qst) (w : nat) (k : kpc) : qst := mkQ (q_stop s) (q_fut s) (q_n s) (upd (q_work s) w k) (q_pc s).
Definition more (s : qst) : qst := mkQ (q_stop s) (q_fut s) (S (q_n s)) (upd (q_work s) (q_n s) K0) (q_pc s).
(** Has the timer thread behind the future ended? No future: nothing to wait for. *)
Definition done (s : qst) : bool := match q_fut s with None => true | Some v => match q_work s v with KEnd => true | _ => false end end.
(** One step; the comments give the lines of UTimer.h. *)
Definition qstep (s : qst) (l : qlab) : qout :=
  match l with
  | Start t => (* 34-36 *)
      match q_pc s t with PIdle => QRun (if q_stop s then at_pc (put_stop s false) t A1 else s) | _ => QStuck end
  | Stop t => (* 78-80 *)
      match q_pc s t with PIdle => QRun (if q_stop s then s else at_pc (put_stop s true) t B1) | _ => QStuck end
  | Go t =>
      match q_pc s t with
      | PIdle => QStuck
      | A1 => (* 38-39 *) QRun (at_pc s t A2)
      | A2 => (* 45: std::async *) QRun (at_pc (more s) t (A3 (q_n s)))
      | A3 w => (* 45: assigning to a future of std::async waits for the thread it had *) if done s then QRun (at_pc (put_fut s w) t PIdle) else QStuck
      | B1 => (* 82 *) QRun (at_pc s t B2)
      | B2 => (* 83 *) match q_fut s with None => QUndef | Some _ => if done s then QRun (at_pc s t PIdle) else QStuck end
      end
  | Work w b =>
      match q_work s w with
      | K0 => (* 46 *) QRun (put_work s w (if q_stop s then KEnd else K1))
      | K1 => (* 48 *) QRun (put_work s w (if b then K2 else K0))
      | K2 => (* 49 *) QRun (put_work s w (if q_stop s then K0 else K3))
      | K3 => (* 51-67 *) QRun (put_work s w K0)
      | KEnd => QStuck
      end
  end.
(** Several steps. *)
Fixpoint qrun (s : qst) (ls : list qlab) : qout :=
  match ls with [] => QRun s | l :: r => match qstep s l with QRun s' => qrun s' r | x => x end end.
