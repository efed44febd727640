(** Task groups, UThreadPool::submit, src/UtilsCtrl/ThreadPool/UThreadPool.cpp 92-127, and UTaskGroup.h.
    Time is that of the steady clock, in ticks. Which thread runs a task and when it ends is an input. *)
From Coq Require Export ZArith List Lia Bool.
Export ListNotations.
Local Open Scope Z_scope.
Local Open Scope list_scope.

(** A task as submit sees it: when its future becomes ready ([None]: never), whether its function threw (the exception is stored in the
    future, which is ready then too), and two delays of the waiting thread: how much later than the deadline it wakes up, and how long it
    takes from one wait to the next. *)
Record gtask := mkGT { g_ready : option Z; g_threw : bool; g_over : nat; g_slack : nat }.
Definition ready_by (t : Z) (g : gtask) : bool := match g_ready g with Some c => c <=? t | None => false end.
Record gres := mkGR { r_commits : nat; r_ok : bool; r_end : Z; r_calls : list bool }.  (* r_calls: statuses the callback was called with *)
(** The loop, UThreadPool.cpp 106-114: wait_until gives ready if the future is ready when the wait ends, be it early or because of the deadline. *)
Fixpoint wait_all (dead now : Z) (ok : bool) (l : list gtask) : bool * Z :=
  match l with
  | [] => (ok, now)
  | g :: r =>
      let w := Z.max now dead + Z.of_nat (g_over g) in
      match g_ready g with
      | Some c => if c <=? w then wait_all dead (Z.max now c + Z.of_nat (g_slack g)) ok r
                  else wait_all dead (w + Z.of_nat (g_slack g)) false r
      | None => wait_all dead (w + Z.of_nat (g_slack g)) false r
      end
  end.
(** submit, UThreadPool.cpp 92-121: [now] is when the tasks have been committed (97-100); the deadline is counted from then. *)
Definition submit (init has_cb : bool) (now gttl ttl : Z) (l : list gtask) : gres :=
  if init then
    let '(ok, t) := wait_all (now + Z.min gttl ttl) now true l in
    mkGR (length l) ok t (if has_cb then [ok] else [])
  else mkGR 0 false now [].
