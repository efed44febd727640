(** GDynamicEngine: choice of the graph type and the two fast paths
    (src/GraphCtrl/GraphElement/_GEngine/GDynamicEngine/GDynamicEngine.cpp). *)
From Verif Require Export GraphModel DynModel.
Local Open Scope nat_scope.

(** GEngine::calcShape, _GEngine/GEngine.h 37-66: linked_size_. *)
Definition linked_size (g : graph) (bind : nat -> Z) : nat :=
  length (filter (fun e => match calc_shape g bind e with ShLinkable => true | _ => false end) (els g)).

Inductive dag_type := AllSerial | AllParallel | Common.
(** analysisDagType, lines GDynamicEngine.cpp 84-99; [fronts] and [ends] are computed by mark(), 66-81. *)
Definition analysis_dag_type (g : graph) (bind : nat -> Z) : dag_type :=
  if is_nil (els g) || (Nat.eqb (length (fronts g)) 1 && Nat.eqb (length (els g) - 1) (linked_size g bind)) then AllSerial
  else if Nat.eqb (length (els g)) (length (ends g)) && Nat.eqb (length (fronts g)) (length (ends g)) then AllParallel
  else Common.

(** analysisParallelMatrix, GDynamicEngine.cpp 102-121. [thd] = default_thread_size_ + secondary_thread_size_ (not negative here). The
    conditions that throw are [None] in the outer option; running out of [fuel] (the C++ loop would not end) is [None]
    in the inner one. *)
Fixpoint matrix_loop (fuel per : nat) (arr : list nat) (cur : nat) : option (list (list nat)) :=
  match fuel with
  | O => None
  | S fuel =>
      if Nat.ltb cur (length arr) then
        let end_ := if Nat.ltb (cur + per) (length arr) then cur + per else length arr in
        match matrix_loop fuel per arr (cur + per) with
        | Some rows => Some (firstn (end_ - cur) (skipn cur arr) :: rows)
        | None => None
        end
      else Some []
  end.
Definition task_num_per_thd (thd n : nat) : nat := n / thd + b2n (negb (Nat.eqb (n mod thd) 0)).
Definition parallel_matrix (thd : nat) (arr : list nat) : option (option (list (list nat))) :=
  if Nat.leb thd 0 then None
  else if Nat.eqb (task_num_per_thd thd (length arr)) 0 then None
  else match matrix_loop (S (length arr)) (task_num_per_thd thd (length arr)) arr 0 with
       | None => Some None
       | Some rows => if existsb (fun r => is_nil r) rows then None else Some (Some rows)
       end.

(** prepareRun, GDynamicEngine.cpp 307-315, its effect on cur_status_. *)
Definition prepare_status (st : status) : status := if isOK st then st else st_reset st.

(** serialRunAll, GDynamicEngine.cpp 291-304; [res e] is the status that the execution of [e] returns. [None]: out of fuel. *)
Fixpoint serial_loop (fuel : nat) (g : graph) (res : nat -> status) (cur : nat) (st : status) : option (list gevent * status) :=
  match fuel with
  | O => None
  | S fuel =>
      let st' := st_plus st (res cur) in
      match succ g cur with
      | [] => Some ([GStart cur; GFinish cur (res cur)], st')
      | x :: _ =>
          if isErr st' then Some ([GStart cur; GFinish cur (res cur)], st')
          else match serial_loop fuel g res x st' with
               | Some (tr, out) => Some (GStart cur :: GFinish cur (res cur) :: tr, out)
               | None => None
               end
      end
  end.
(** run(), GDynamicEngine.cpp 30-48, on the ALL_SERIAL branch. [prev] is cur_status_ as the previous run left it. *)
Definition serial_run (g : graph) (res : nat -> status) (prev : status) : option (list gevent * status) :=
  match fronts g with
  | [] => Some ([], prepare_status prev)
  | f :: _ => serial_loop (S (length (els g))) g res f (prepare_status prev)
  end.

(** * ALL_PARALLEL branch as a transition system *)
(** Granularity and memory as in DynModel. The pool is a bag of tasks: which queue a task goes to (thread of its row,
    bound thread, common queue) only restricts which thread takes it when, so the bag has more executions than the pool.
    wakeupAllThread (GDynamicEngine.cpp 250-253) has no effect on this level. *)
Inductive pop :=
| PTest (e : nat)                 (* parallelRunOne(): test cur_status_, GDynamicEngine.cpp 271-273 *)
| PStart (e : nat)                (* fatProcessor(RUN) starts *)
| PBody (e : nat)                 (* it is running; ends with any status *)
| PErr (e : nat) (r : status)     (* cur_status_ += status under status_lock_, GDynamicEngine.cpp 276-281 *)
| PCount (e : nat)                (* parallel_run_num_.fetch_add(1) + 1, 283 *)
| PCheck (n : nat)                (* finishedSize >= total_end_size_ || cur_status_.isErr(), 284 *)
| PNotify.                        (* lock mtx_, notify_one, GDynamicEngine.cpp 285-286 *)
Inductive pphase :=
| QIdle | QPrep                   (* prepareRun *)
| QZero                           (* parallel_run_num_ = 0, 230 *)
| QPush (l : list nat)            (* the loop over the matrix, GDynamicEngine.cpp 232-248: rows in order, elements in row order *)
| QPoll (n : nat)                 (* GDynamicEngine.cpp 255-261 *)
| QLock | QEvalNum | QEvalErr | QPreSleep | QAsleep   (* cv_.wait, GDynamicEngine.cpp 263-268 *)
| QRet.
Definition p_holds (m : pphase) : bool := match m with QEvalNum | QEvalErr | QPreSleep => true | _ => false end.
Record pcfg := mkPC { p_els : list nat; p_rows : list (list nat); p_workers : nat; p_epoch : nat }.
Record pst := mkP {
  p_num : nat;                    (* parallel_run_num_ *)
  p_stat : status;                (* cur_status_ *)
  p_tr : list gevent;             (* events of the current run *)
  p_pool : list nat;              (* tasks in the pool *)
  p_act : list pop;               (* busy workers, each with its next action *)
  p_main : pphase;
  p_out : option status
}.
Definition p_init : pst := mkP 0 st_default [] [] [] QIdle None.

(** One action of a worker: number, status, trace, next action, notify? *)
Definition pop_sem (c : pcfg) (num : nat) (st : status) (tr : list gevent) (o : pop) (r : status)
  : nat * status * list gevent * option pop * bool :=
  match o with
  | PTest e => (num, st, tr, if isErr st then None else Some (PStart e), false)
  | PStart e => (num, st, tr ++ [GStart e], Some (PBody e), false)
  | PBody e => (num, st, tr ++ [GFinish e r], Some (if isErr r then PErr e r else PCount e), false)
  | PErr e r0 => (num, st_plus st r0, tr, Some (PCount e), false)
  | PCount e => (S num, st, tr, Some (PCheck (S num)), false)
  | PCheck n => (num, st, tr, if Nat.leb (length (p_els c)) n || isErr st then Some PNotify else None, false)
  | PNotify => (num, st, tr, None, true)
  end.
Definition p_wake (n : bool) (m : pphase) : pphase := match m with QAsleep => if n then QLock else QAsleep | _ => m end.
Definition pop_enabled (m : pphase) (o : pop) : bool := match o with PNotify => negb (p_holds m) | _ => true end.

Definition pstep (c : pcfg) (s : pst) (lb : dlabel) : option pst :=
  match lb with
  | LRun => match p_main s with QIdle => Some (mkP (p_num s) (p_stat s) [] (p_pool s) (p_act s) QPrep None) | _ => None end
  | LSpurious => match p_main s with QAsleep => Some (mkP (p_num s) (p_stat s) (p_tr s) (p_pool s) (p_act s) QLock (p_out s)) | _ => None end
  | LPick i =>
      if Nat.ltb (length (p_act s)) (p_workers c) then
        match nth_error (p_pool s) i with
        | Some e => Some (mkP (p_num s) (p_stat s) (p_tr s) (remove_nth i (p_pool s)) (p_act s ++ [PTest e]) (p_main s) (p_out s))
        | None => None
        end
      else None
  | LWork i r =>
      match nth_error (p_act s) i with
      | Some o =>
          if pop_enabled (p_main s) o then
            let '(num, st, tr, next, nt) := pop_sem c (p_num s) (p_stat s) (p_tr s) o r in
            Some (mkP num st tr (p_pool s)
                    (match next with Some o' => replace_nth i o' (p_act s) | None => remove_nth i (p_act s) end)
                    (p_wake nt (p_main s)) (p_out s))
          else None
      | None => None
      end
  | LMain _ =>
      let set m := Some (mkP (p_num s) (p_stat s) (p_tr s) (p_pool s) (p_act s) m (p_out s)) in
      let full := Nat.leb (length (p_els c)) (p_num s) in
      match p_main s with
      | QIdle => None
      | QPrep => Some (mkP (p_num s) (prepare_status (p_stat s)) (p_tr s) (p_pool s) (p_act s) QZero (p_out s))
      | QZero => Some (mkP 0 (p_stat s) (p_tr s) (p_pool s) (p_act s) (QPush (concat (p_rows c))) (p_out s))
      | QPush (e :: l) => Some (mkP (p_num s) (p_stat s) (p_tr s) (p_pool s ++ [e]) (p_act s) (QPush l) (p_out s))
      | QPush [] => set (QPoll (p_epoch c))
      | QPoll 0 => set QLock
      | QPoll (S n) => set (if full then QRet else QPoll n)
      | QLock => set QEvalNum
      | QEvalNum => set (if full then QRet else QEvalErr)
      | QEvalErr => set (if isErr (p_stat s) then QRet else QPreSleep)
      | QPreSleep => set QAsleep
      | QAsleep => None
      | QRet => Some (mkP (p_num s) (p_stat s) (p_tr s) (p_pool s) (p_act s) QIdle (Some (p_stat s)))
      end
  end.
Fixpoint prun (c : pcfg) (s : pst) (ls : list dlabel) : option pst :=
  match ls with [] => Some s | l :: r => match pstep c s l with Some s' => prun c s' r | None => None end end.
