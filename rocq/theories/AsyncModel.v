(** Asynchronous runs: asyncRun and asyncProcess, src/GraphCtrl/GraphPipeline/GPipeline.cpp 159-181, with init, run, destroy and process
    (36-123) cut into their visible steps, so that calls may overlap. The program is that of one user thread; std::async with
    std::launch::async starts another thread for the call, with std::launch::deferred the call is made by the thread that asks the future.
    Simplified: the elements are executed one after the other (as by the topological engine), setup and reset of all parameters are one
    parameter that is or is not set up, and cancel, suspend and the thread pool are left out. Elements are nats. *)
From Verif Require Export ListUtil.
From Coq Require Export Lia.
Local Open Scope nat_scope.
Local Open Scope list_scope.

(** What can be seen: an element body starts and finds the parameters set up or not; it ends with OK or an error *)
Inductive vis := VInit | VSetup | VStart (e : nat) (par : bool) | VEnd (e : nat) (ok : bool) | VReset | VDestroy.
(** The elements, and what the user code answers: [u_body tr e]: the body of [e] started in trace [tr] is OK; [u_init tr]: init succeeds *)
Record user := mkUser { u_els : list nat; u_body : list vis -> nat -> bool; u_init : list vis -> bool }.
(** is_init_, whether the parameters are set up, and the trace, newest last *)
Record pst := mkP { p_init : bool; p_par : bool; p_tr : list vis }.
Definition see (p : pst) (v : vis) : pst := mkP (p_init p) (p_par p) (p_tr p ++ [v]).

(** Where a call is *)
Inductive pc :=
| CInit0 | CInit1                                    (* init: the check of is_init_; the rest *)
| CRun0 | CRun1                                      (* run: the check; setup *)
| CBody (l : list nat)                               (* the elements still to be executed *)
| CIn (e : nat) (l : list nat)                       (* inside the body of [e] *)
| CRun2                                              (* reset *)
| CDes0 | CDes1                                      (* destroy: the check; the rest *)
| CDone.
(** A call: where it is, its status, and for process the number of runs left *)
Record act := mkA { a_pc : pc; a_ok : bool; a_left : option nat }.
(** The loop of process, GPipeline.cpp 110-120: after init, and after every run. Without [left] the call is a plain init or run. *)
Definition after (ok : bool) (left : option nat) : act :=
  match left with
  | None => mkA CDone ok None
  | Some (S n) => if ok then mkA CRun0 ok (Some n) else mkA CDes0 ok (Some 0)
  | Some 0 => mkA CDes0 ok (Some 0)
  end.
(** The next step of a call *)
Definition act_step (u : user) (p : pst) (a : act) : pst * act :=
  match a_pc a with
  | CInit0 => (p, if p_init p then mkA CDone false (a_left a) else mkA CInit1 (a_ok a) (a_left a))      (* 38; process returns at once, 108 *)
  | CInit1 =>                                                                                         (* GPipeline.cpp 41-52 *)
      let ok := u_init u (p_tr p) in
      if ok then (see (mkP true (p_par p) (p_tr p)) VInit, after (a_ok a) (a_left a)) else (see p VInit, mkA CDone false (a_left a))
  | CRun0 => (p, if p_init p then mkA CRun1 (a_ok a) (a_left a) else after false (a_left a))            (* 58 *)
  | CRun1 => (see (mkP (p_init p) true (p_tr p)) VSetup, mkA (CBody (u_els u)) (a_ok a) (a_left a))    (* GPipeline.cpp 68-69 *)
  | CBody [] => (p, mkA CRun2 (a_ok a) (a_left a))
  | CBody (e :: l) => (see p (VStart e (p_par p)), mkA (CIn e l) (a_ok a) (a_left a))                 (* 72 *)
  | CIn e l =>
      let ok := u_body u (p_tr p) e in
      (see p (VEnd e ok), if ok then mkA (CBody l) (a_ok a) (a_left a) else mkA CRun2 false (a_left a))
  | CRun2 => (see (mkP (p_init p) false (p_tr p)) VReset, after (a_ok a) (a_left a))                   (* GPipeline.cpp 73-75 *)
  | CDes0 => (p, if p_init p then mkA CDes1 (a_ok a) (a_left a) else mkA CDone false (a_left a))        (* 83 *)
  | CDes1 => (see (mkP false (p_par p) (p_tr p)) VDestroy, mkA CDone (a_ok a) (a_left a))              (* GPipeline.cpp 90-101 *)
  | CDone => (p, a)
  end.

(** The calls that may be made asynchronously, and what they start with *)
Inductive job := JRun | JProcess (n : nat).
Definition job_act (j : job) : act := match j with JRun => mkA CRun0 true None | JProcess n => mkA CInit0 true (Some n) end.
(** is_init_ must be true for asyncRun (164) and false for asyncProcess (173), when they are called *)
Definition job_init (j : job) : bool := match j with JRun => true | JProcess _ => false end.
Inductive policy := Async | Deferred.
Inductive aop :=
| OInit | ODestroy
| OCall (j : job)                         (* run(), process(n) *)
| OAsync (k : nat) (j : job) (p : policy) (* f_k = asyncRun(p), asyncProcess(n, p) *)
| OGet (k : nat)                          (* f_k.get() *)
| ODrop (k : nat)                         (* f_k = {}: the destructor of the future *)
| OUser.                                  (* code of the user that does not touch the pipeline *)
Inductive aans :=
| RStatus (ok : bool)
| RThrow                                  (* CException *)
| RVoid
| RNone.                                  (* the future is in use, or there is none: not a program *)
(** A future: the thread that makes the call, or the call that is still to be made *)
Inductive fut := FThread (a : act) | FLazy (j : job).
Record sys := mkS
  { s_p : pst; s_fut : nat -> option fut;
    s_now : option act;                    (* the call the user thread is in *)
    s_todo : list aop; s_ans : list aans }.
Definition sys_new (prog : list aop) : sys := mkS (mkP false false []) (fun _ => None) None prog [].

Definition answer (s : sys) (f : nat -> option fut) (a : aans) : sys := mkS (s_p s) f None (tl (s_todo s)) (s_ans s ++ [a]).
Definition begin (s : sys) (f : nat -> option fut) (a : act) : sys := mkS (s_p s) f (Some a) (s_todo s) (s_ans s).
(** The user thread; [None]: it is at the end, or waits *)
Definition main_step (u : user) (s : sys) : option sys :=
  match s_now s with
  | Some a =>
      match a_pc a with
      | CDone => Some (answer s (s_fut s) (RStatus (a_ok a)))
      | _ => let '(p, a') := act_step u (s_p s) a in Some (mkS p (s_fut s) (Some a') (s_todo s) (s_ans s))
      end
  | None =>
      match s_todo s with
      | [] => None
      | OInit :: _ => Some (begin s (s_fut s) (mkA CInit0 true None))
      | ODestroy :: _ => Some (begin s (s_fut s) (mkA CDes0 true None))
      | OCall j :: _ => Some (begin s (s_fut s) (job_act j))
      | OUser :: _ => Some (answer s (s_fut s) RVoid)
      | OAsync k j p :: _ =>
          match s_fut s k with
          | Some _ => Some (answer s (s_fut s) RNone)
          | None =>
              if Bool.eqb (p_init (s_p s)) (job_init j)
              then Some (answer s (upd (s_fut s) k (Some (match p with Async => FThread (job_act j) | Deferred => FLazy j end))) RVoid)
              else Some (answer s (s_fut s) RThrow)
          end
      | OGet k :: _ =>                       (* get waits for the thread, or makes the call *)
          match s_fut s k with
          | None => Some (answer s (s_fut s) RNone)
          | Some (FThread a) => match a_pc a with CDone => Some (answer s (upd (s_fut s) k None) (RStatus (a_ok a))) | _ => None end
          | Some (FLazy j) => Some (begin s (upd (s_fut s) k None) (job_act j))
          end
      | ODrop k :: _ =>                      (* the destructor of a future of std::async waits for the thread; a deferred call is never made *)
          match s_fut s k with
          | None => Some (answer s (s_fut s) RNone)
          | Some (FThread a) => match a_pc a with CDone => Some (answer s (upd (s_fut s) k None) RVoid) | _ => None end
          | Some (FLazy _) => Some (answer s (upd (s_fut s) k None) RVoid)
          end
      end
  end.
(** The thread of a future *)
Definition fut_step (u : user) (s : sys) (k : nat) : option sys :=
  match s_fut s k with
  | Some (FThread a) =>
      match a_pc a with
      | CDone => None
      | _ => let '(p, a') := act_step u (s_p s) a in Some (mkS p (upd (s_fut s) k (Some (FThread a'))) (s_now s) (s_todo s) (s_ans s))
      end
  | _ => None
  end.
Inductive who := Main | Thread (k : nat).
Definition sys_step (u : user) (s : sys) (w : who) : option sys := match w with Main => main_step u s | Thread k => fut_step u s k end.
Fixpoint sys_run (u : user) (s : sys) (ws : list who) : option sys :=
  match ws with [] => Some s | w :: r => match sys_step u s w with None => None | Some s1 => sys_run u s1 r end end.
