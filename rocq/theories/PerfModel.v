(** GPipeline::perf (src/GraphCtrl/GraphPipeline/GPipeline.cpp 219-225): GPerf.cpp, GPerfAspect.h and GPerfDefine.h in GraphPipeline/_GPerf/.
    The run that perf makes (GPipeline::process, 106-125) is given as the list of what happens to the aspects of the elements during it, in the order of the clock, and its status:
    any list is allowed here (ElemModel says which ones one element produces: begin, body, finish for every iteration).
    Simplified: time stamps are integers (microseconds: the clock is read at that resolution, UtilsFunction.h 40-44) and sums of them are exact, where the code has doubles of milliseconds;
    of an aspect only its identity counts, unless it is the one perf adds; a missing aspect manager is the same as one with no aspects;
    dump (GPipeline.cpp 200-216) only reads, and cannot fail: what it prints from is the second component of the result. *)
From Verif Require Export OptModel.
From Coq Require Export Lia Bool.
Local Open Scope nat_scope.
Local Open Scope list_scope.

(** GPerfInfo, GPerfDefine.h 16-22. *)
Record pinfo := mkInfo { i_loop : nat; i_first : Z; i_last : Z; i_accu : Z; i_long : bool }.
Definition info0 : pinfo := mkInfo 0 0 0 0 false.

(** An aspect of an element: one of the user's, or a GPerfAspect with its pipeline_start_ts_, cur_start_ts_ and the GPerfInfo it points to (GPerfAspect.h 44-47). *)
Inductive asp := AUser (n : nat) | APerf (t0 cur : Z) (ref : nat).
(** The aspects and the perf_info_ of the elements, and the GPerfInfo structures allocated ([None]: freed or never allocated). *)
Record pst := mkP { p_asp : nat -> list asp; p_info : nat -> option nat; p_heap : nat -> option pinfo; p_next : nat }.

(** What happens to an element's aspects during the run: the calls of beginRun and finishRun (with the clock), and an aspect added by a body
    (GElement::addGAspect does not ask the element not to be initialised, GElement.inl 17-45). *)
Inductive pev := PBegin (now : Z) | PFinish (now : Z) | PAdd (n : nat).

(** GPerfAspect::beginRun, GPerfAspect.h 26-35, and finishRun, 37-42; [None]: the structure was freed. *)
Definition begin_one (now : Z) (h : nat -> option pinfo) (a : asp) : option ((nat -> option pinfo) * asp) :=
  match a with
  | AUser n => Some (h, a)
  | APerf t0 _ r =>
      match h r with
      | None => None
      | Some i => Some (if Z.eqb 0 (i_first i) then upd h r (Some (mkInfo (i_loop i) (now - t0) (i_last i) (i_accu i) (i_long i))) else h, APerf t0 now r)
      end
  end.
Definition finish_one (now : Z) (h : nat -> option pinfo) (a : asp) : option ((nat -> option pinfo) * asp) :=
  match a with
  | AUser n => Some (h, a)
  | APerf t0 cur r =>
      match h r with
      | None => None
      | Some i => Some (upd h r (Some (mkInfo (S (i_loop i)) (i_first i) (now - t0) (i_accu i + (now - cur))%Z (i_long i))), a)
      end
  end.
(** GAspectManager::reflect, GAspectManager.cpp 26-75: all aspects in the order in which they were added. *)
Fixpoint each (f : (nat -> option pinfo) -> asp -> option ((nat -> option pinfo) * asp)) (h : nat -> option pinfo) (l : list asp) : option ((nat -> option pinfo) * list asp) :=
  match l with
  | [] => Some (h, [])
  | a :: r => match f h a with
              | None => None
              | Some (h', a') => match each f h' r with None => None | Some (h'', r') => Some (h'', a' :: r') end
              end
  end.
(** One event; [None]: undefined behaviour (a freed structure is used). *)
Definition p_step (s : pst) (x : nat * pev) : option pst :=
  let (e, v) := x in
  match v with
  | PBegin now => match each (begin_one now) (p_heap s) (p_asp s e) with
                  | None => None | Some (h, l) => Some (mkP (upd (p_asp s) e l) (p_info s) h (p_next s)) end
  | PFinish now => match each (finish_one now) (p_heap s) (p_asp s e) with
                   | None => None | Some (h, l) => Some (mkP (upd (p_asp s) e l) (p_info s) h (p_next s)) end
  | PAdd n => Some (mkP (upd (p_asp s) e (p_asp s e ++ [AUser n])) (p_info s) (p_heap s) (p_next s))
  end.
Fixpoint p_run (s : pst) (l : list (nat * pev)) : option pst :=
  match l with [] => Some s | x :: r => match p_step s x with None => None | Some s' => p_run s' r end end.

(** GPerf::inject, GPerf.cpp 39-53, over the elements of the repository: a new structure and a new aspect for each; the previous perf_info_ is overwritten. *)
Definition inject_one (t0 : Z) (s : pst) (e : nat) : pst :=
  mkP (upd (p_asp s) e (p_asp s e ++ [APerf t0 0 (p_next s)])) (upd (p_info s) e (Some (p_next s))) (upd (p_heap s) (p_next s) (Some info0)) (S (p_next s)).
Definition inject (t0 : Z) (s : pst) (repo : list nat) : pst := fold_left (inject_one t0) repo s.

(** What an element's perf_info_ points to. *)
Definition info_of (s : pst) (e : nat) : option pinfo := match p_info s e with None => None | Some r => p_heap s r end.

(** GPerf::markLongestPath, GPerf.cpp 56-79. The sum of a path, 63-66; [None]: a null or freed perf_info_ is used. *)
Fixpoint path_cost (s : pst) (p : list nat) : option Z :=
  match p with
  | [] => Some 0%Z
  | e :: r => match info_of s e, path_cost s r with Some i, Some c => Some (i_accu i + c)%Z | _, _ => None end
  end.
(** The loop GPerf.cpp 61-71: the best path so far and its sum. *)
Fixpoint longest (s : pst) (best : list nat) (maxTs : Z) (paths : list (list nat)) : option (list nat) :=
  match paths with
  | [] => Some best
  | p :: r => match path_cost s p with
              | None => None
              | Some c => if Z.leb maxTs c then longest s p c r else longest s best maxTs r
              end
  end.
(** GPerf.cpp 73-76. *)
Definition mark_one (s : pst) (e : nat) : pst :=
  match p_info s e with
  | None => s
  | Some r => match p_heap s r with
              | None => s
              | Some i => mkP (p_asp s) (p_info s) (upd (p_heap s) r (Some (mkInfo (i_loop i) (i_first i) (i_last i) (i_accu i) true))) (p_next s)
              end
  end.
(** [g]: the pipeline's own elements (manager_elements_) and their dependencies. *)
Definition mark (g : graph) (s : pst) : option pst :=
  match collect_paths g with
  | None => None
  | Some paths => match longest s [] 0 paths with None => None | Some p => Some (fold_left mark_one p s) end
  end.

(** GElement::popLastAspect, GElement.cpp 519-532, with GAspectManager::popLast, GAspectManager.cpp 93-101; [false]: an error, nothing popped. *)
Definition pop_last (l : list asp) : bool * list asp := match l with [] => (false, []) | _ => (true, removelast l) end.
(** GPerf::recover, GPerf.cpp 82-90: CGRAPH_DELETE_PTR frees the structure and clears the pointer. *)
Definition recover_one (x : bool * pst) (e : nat) : bool * pst :=
  let (ok, s) := x in
  let (b, l) := pop_last (p_asp s e) in
  (ok && b, mkP (upd (p_asp s) e l) (upd (p_info s) e None) (match p_info s e with None => p_heap s | Some r => upd (p_heap s) r None end) (p_next s)).
Definition recover (s : pst) (repo : list nat) : bool * pst := fold_left recover_one repo (true, s).

(** GPerf::perf, GPerf.cpp 16-36: the status, what dump printed from (when it was reached), and the state it leaves. [None]: undefined behaviour.
    [repo]: the elements of the repository; [evs], [ok]: what the run did, and its status. *)
Definition perf (repo : list nat) (g : graph) (t0 : Z) (evs : list (nat * pev)) (ok : bool) (s : pst) : option (bool * (nat -> option pinfo) * pst) :=
  match p_run (inject t0 s repo) evs with
  | None => None
  | Some s1 =>
      if ok then
        match mark g s1 with
        | None => None
        | Some s2 => let (b, s3) := recover s2 repo in Some (b, info_of s2, s3)
        end
      else Some (false, fun _ => None, s1)
  end.
