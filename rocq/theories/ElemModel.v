(** Processing of one element: GElement::fatProcessor and its aspects
    (src/GraphCtrl/GraphElement/GElement.cpp 208-286, src/GraphCtrl/GraphAspect/GAspectManager.cpp 23-65). *)
From Verif Require Export StatusModel.
From Coq Require Import Lia.
Local Open Scope nat_scope.
Open Scope string_scope.

(** CFunctionType, src/CBasic/CFuncType.h. *)
Inductive fntype := FInit | FRun | FDestroy.
(** internal::GAspectType, src/GraphCtrl/GraphAspect/GAspectDefine.h. *)
Inductive akind := ABeginRun | AFinishRun | ABeginInit | AFinishInit | ABeginDestroy | AFinishDestroy | AEnterTimeout | AEnterCrashed.
Definition is_begin (k : akind) : bool := match k with ABeginRun | ABeginInit | ABeginDestroy => true | _ => false end.

(** Calls to user code, and [CState]: the read of getCurState() (GElement.cpp 469-476), which other threads influence.
    [CBody] is run(), or asyncRun() for an element with a timeout (AsyncModel). [CMark] is not a call: it marks in the
    log that fatProcessor was entered. *)
Inductive cb :=
| CMark (f : fntype)
| CPrepare | CBody | CHold | CCheck | CInit | CDestroy | CState
| CAspect (k : akind) (i : nat) (arg : status).
(** What a call does: it throws a CException with the given what(), throws something else, or returns a status / a flag
    (isHold(), or "getCurState() is NORMAL"). *)
Inductive exc := CExc (what : string) | Foreign.
Record resp := mkR { r_exc : option exc; r_st : status; r_flag : bool }.
Definition log := list (cb * resp).
(** User code: any function of everything that happened before. *)
Definition oracle := log -> cb -> resp.
Definition r_none : resp := mkR None st_default false.

(** Outcome of a function. [NoFuel]: the hold loop was not finished within the given number of rounds (it need not
    end in C++ either). *)
Inductive out (A : Type) := Val (a : A) | Thrown (what : string) | Escaped | NoFuel.
Arguments Val {A}. Arguments Thrown {A}. Arguments Escaped {A}. Arguments NoFuel {A}.

(** CEXCEPTION(info, locate): what() is locate + " | " + info, src/CBasic/CException.h. [locate] is empty for
    CGRAPH_FUNCTION_CHECK_STATUS; for CGRAPH_THROW_EXCEPTION it names file and line, which is left out here. *)
Definition what_of (info : string) : string := " | " ++ info.

Section Elem.
Variable ask : oracle.

Definition call (c : cb) (l : log) : log * out resp :=
  let r := ask l c in
  ((l ++ [(c, r)])%list, match r_exc r with None => Val r | Some (CExc m) => Thrown m | Some Foreign => Escaped end).

(** GAspectManager::reflect, GAspectManager.cpp 23-65: aspects i, i+1, ... ([n] of them). *)
Fixpoint reflect (k : akind) (arg : status) (i n : nat) (st : status) (l : log) : log * out status :=
  match n with
  | O => (l, Val st)
  | S n' =>
      match call (CAspect k i arg) l with
      | (l1, Val r) =>
          let st' := if is_begin k then st_assign st (r_st r) else st in
          match check_status st' with
          | Continue => reflect k arg (S i) n' st' l1
          | ReturnStatus v => (l1, Val v)
          | ThrowExc m => (l1, Thrown (what_of m))
          end
      | (l1, Thrown m) => (l1, Thrown m)
      | (l1, Escaped) => (l1, Escaped)
      | (l1, NoFuel) => (l1, NoFuel)
      end
  end.
(** GElement::doAspect, GElement.cpp 208-218; [n] = number of aspects. *)
Definition do_aspect (k : akind) (arg : status) (n : nat) (l : log) : log * out status :=
  if Nat.eqb n 0 then (l, Val st_default)
  else match reflect k arg 0 n st_default l with
       | (l1, Val v) => (l1, Val (st_assign st_default v))
       | r => r
       end.

(** Control inside the try block: go on with the status, return it, or throw (with the value the local variable
    [status] has at that moment, which the catch clause assigns to). *)
Inductive ctl := Go (st : status) | Ret (st : status) | Thr (st : status) (m : string) | Esc | Fuel.
Definition lift (st : status) (r : out status) (f : status -> ctl) : ctl :=
  match r with Val v => f v | Thrown m => Thr st m | Escaped => Esc | NoFuel => Fuel end.
(** CGRAPH_FUNCTION_CHECK_STATUS inside fatProcessor. *)
Definition check (st : status) : ctl :=
  match check_status st with Continue => Go st | ReturnStatus v => Ret v | ThrowExc m => Thr st (what_of m) end.

(** The do-while loop, GElement.cpp 245-254. checkSuspend() (441-450) only blocks; see StateModel. *)
Fixpoint hold_loop (fuel : nat) (st : status) (l : log) : log * ctl :=
  match fuel with
  | O => (l, Fuel)
  | S f =>
      match call CBody l with
      | (l1, Val r) =>
          let st' := st_plus st (r_st r) in
          match call CHold l1 with
          | (l2, Val h) => if r_flag h && isOK st' then hold_loop f st' l2 else (l2, Go st')
          | (l2, Thrown m) => (l2, Thr st' m)
          | (l2, Escaped) => (l2, Esc)
          | (l2, NoFuel) => (l2, Fuel)
          end
      | (l1, Thrown m) => (l1, Thr st m)
      | (l1, Escaped) => (l1, Esc)
      | (l1, NoFuel) => (l1, Fuel)
      end
  end.

(** The loop over loop_, GElement.cpp 240-256; [k] iterations are left, [n] aspects. *)
Fixpoint run_loop (n fuel k : nat) (st : status) (l : log) : log * ctl :=
  match k with
  | O => (l, Go st)
  | S k' =>
      if negb (isOK st) then (l, Go st)
      else
        let r0 := ask l CState in
        let l0 := (l ++ [(CState, r0)])%list in
        if negb (r_flag r0) then (l0, Go st)
        else
          let '(l1, b) := do_aspect ABeginRun st_default n l0 in
          match lift st b (fun v => check (st_plus st v)) with
          | Go st1 =>
              match hold_loop fuel st1 l1 with
              | (l2, Go st2) =>
                  let '(l3, e) := do_aspect AFinishRun st2 n l2 in
                  match lift st2 e (fun _ => Go st2) with
                  | Go st3 => run_loop n fuel k' st3 l3
                  | c => (l3, c)
                  end
              | r => r
              end
          | c => (l1, c)
          end
  end.

(** CGRAPH_THROW_EXCEPTION_BY_STATUS(checkRunResult()), GElement.cpp 258; the macro (CFuncType.h 76-78) evaluates its
    argument once more to get the message when the status is an error. *)
Definition check_run_result (st : status) (l : log) : log * ctl :=
  match call CCheck l with
  | (l1, Val r) =>
      if isErr (r_st r) then
        match call CCheck l1 with
        | (l2, Val r2) => (l2, Thr st (what_of (info (r_st r2))))
        | (l2, Thrown m) => (l2, Thr st m)
        | (l2, Escaped) => (l2, Esc)
        | (l2, NoFuel) => (l2, Fuel)
        end
      else (l1, Ret st)
  | (l1, Thrown m) => (l1, Thr st m)
  | (l1, Escaped) => (l1, Esc)
  | (l1, NoFuel) => (l1, Fuel)
  end.

(** case RUN, GElement.cpp 233-260. Also returns the new value of is_prepared_. *)
Definition try_run (n loop fuel : nat) (prepared : bool) (l : log) : log * bool * ctl :=
  let rest st l1 :=
    match run_loop n fuel loop st l1 with
    | (l2, Go st2) => let '(l3, c) := check_run_result st2 l2 in (l3, true, c)
    | (l2, c) => (l2, true, c)
    end in
  if prepared then rest st_default l
  else match call CPrepare l with
       | (l1, Val r) =>
           match check (st_assign st_default (r_st r)) with
           | Go st => rest st l1
           | c => (l1, false, c)
           end
       | (l1, Thrown m) => (l1, false, Thr st_default m)
       | (l1, Escaped) => (l1, false, Esc)
       | (l1, NoFuel) => (l1, false, Fuel)
       end.
(** cases INIT and DESTROY, GElement.cpp 261-276. *)
Definition try_simple (kb kf : akind) (body : cb) (n : nat) (l : log) : log * ctl :=
  let '(l1, b) := do_aspect kb st_default n l in
  match lift st_default b (fun v => check (st_assign st_default v)) with
  | Go st =>
      match call body l1 with
      | (l2, Val r) =>
          let st' := st_assign st (r_st r) in
          let '(l3, e) := do_aspect kf st' n l2 in
          (l3, lift st' e (fun _ => Ret st'))
      | (l2, Thrown m) => (l2, Thr st m)
      | (l2, Escaped) => (l2, Esc)
      | (l2, NoFuel) => (l2, Fuel)
      end
  | c => (l1, c)
  end.

(** GElement::fatProcessor, GElement.cpp 221-286. The arguments are the fields visible_, number of aspects, loop_. The
    state is the log and is_prepared_. (concerned_params_ is not modelled here.) *)
Definition fat (vis : bool) (n loop fuel : nat) (f : fntype) (s : log * bool) : (log * bool) * out status :=
  if negb vis then (s, Val st_default)
  else
    let l := (fst s ++ [(CMark f, r_none)])%list in
    let '(l1, p, c) :=
      match f with
      | FRun => try_run n loop fuel (snd s) l
      | FInit => let '(l1, c) := try_simple ABeginInit AFinishInit CInit n l in (l1, false, c)
      | FDestroy => let '(l1, c) := try_simple ABeginDestroy AFinishDestroy CDestroy n l in (l1, snd s, c)
      end in
    match c with
    | Go st | Ret st => ((l1, p), Val st)
    | Thr st m =>
        (* catch (const CException& ex): enter-crashed aspects, status = crashed(ex); crashed(): GElement.cpp 345-348 *)
        match do_aspect AEnterCrashed st_default n l1 with
        | (l2, Val _) => ((l2, p), Val (st_assign st (mkStatus STATUS_CRASH m)))
        | (l2, Thrown m') => ((l2, p), Thrown m')
        | (l2, Escaped) => ((l2, p), Escaped)
        | (l2, NoFuel) => ((l2, p), NoFuel)
        end
    | Esc => ((l1, p), Escaped)
    | Fuel => ((l1, p), NoFuel)
    end.

(** A history of calls on one element; the fields may change between calls (setVisible, setLoop, added aspects). *)
Record fcall := mkF { f_vis : bool; f_aspects : nat; f_loop : nat; f_fn : fntype }.
Fixpoint fat_history (fuel : nat) (h : list fcall) (s : log * bool) : (log * bool) * list (out status) :=
  match h with
  | [] => (s, [])
  | c :: r =>
      let '(s1, o) := fat (f_vis c) (f_aspects c) (f_loop c) fuel (f_fn c) s in
      match o with
      | NoFuel => (s1, [o])
      | _ => let '(s2, os) := fat_history fuel r s1 in (s2, o :: os)
      end
  end.
End Elem.

(** * Setters *)
(** GElement::setLoop GElement.cpp 42-50 and setTimeout 80-90, checkSuitable 567-579. [el_mut]: the parent is a GMutable (isMutable 334-339). *)
Record eset := mkES { es_loop : N; es_timeout : Z; es_init : bool; es_mut : bool }.
Definition set_loop (e : eset) (loop : N) : option eset :=       (* None: throws *)
  if es_init e && negb (es_mut e) then None
  else if (0 <? es_timeout e)%Z && negb (loop =? 1)%N then None
  else Some (mkES loop (es_timeout e) (es_init e) (es_mut e)).
Definition set_timeout (e : eset) (t : Z) : option eset :=
  if es_init e then None
  else if (t <? 0)%Z then None
  else if (1 <? es_loop e)%N && negb (t =? 0)%Z then None
  else Some (mkES (es_loop e) t (es_init e) (es_mut e)).
(** The part of checkSuitable (GElement.cpp 572-573) about loop and timeout: true = accepted. *)
Definition check_suitable (e : eset) : bool := negb ((1 <? es_loop e)%N && negb (es_timeout e =? 0)%Z).
(** Defaults: CGRAPH_DEFAULT_LOOP_TIMES = 1, CGRAPH_DEFAULT_ELEMENT_TIMEOUT = 0, GElementDefine.h. *)
Definition es_fresh (m : bool) : eset := mkES 1 0 false m.
Inductive esop := ESLoop (n : N) | ESTimeout (t : Z) | ESInit (b : bool).
(** A throwing setter leaves the object unchanged; is_init_ is changed by the lifecycle. *)
Definition es_step (e : eset) (o : esop) : eset :=
  match o with
  | ESLoop n => match set_loop e n with Some e' => e' | None => e end
  | ESTimeout t => match set_timeout e t with Some e' => e' | None => e end
  | ESInit b => mkES (es_loop e) (es_timeout e) b (es_mut e)
  end.
Definition es_run (e : eset) (l : list esop) : eset := fold_left es_step l e.
