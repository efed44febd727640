(** GDynamicEngine, common path, as a transition system
    (src/GraphCtrl/GraphElement/_GEngine/GDynamicEngine/GDynamicEngine.cpp).

    Granularity: one label = one atomic action of one thread (one test of the shared status, one atomic
    read-modify-write, one critical section, one condition variable test / sleep / notify, one start or end of
    an element). Memory is sequentially consistent (the C++ code reads cur_status_ outside its lock; that data
    race is not modelled as undefined behaviour). *)
From Verif Require Export GraphModel.
Local Open Scope nat_scope.

(** internal::GElementShape, src/GraphCtrl/GraphElement/GElementDefine.h. *)
Inductive shape := ShNormal | ShLinkable | ShRoot | ShTail.

(** GEngine::calcShape, _GEngine/GEngine.h 37-66, for one element. [bind] is binding_index_. *)
Definition calc_shape (g : graph) (bind : nat -> Z) (e : nat) : shape :=
  let l := succ g e in
  if match l with [x] => Nat.eqb (length (dep g x)) 1 && Z.eqb (bind e) (bind x) | _ => false end then ShLinkable
  else if negb (is_nil l) && forallb (fun x => Nat.eqb (length (dep g x)) 1) l then ShRoot
  else if is_nil l then ShTail
  else ShNormal.

Record dcfg := mkCfg {
  c_g : graph;
  c_bind : nat -> Z;        (* binding_index_; -1 is the default binding, GElement::isDefaultBinding *)
  c_workers : nat;          (* threads that take tasks of the pool *)
  c_epoch : nat             (* pipeline_wait_busy_epoch_ *)
}.
Definition is_default (c : dcfg) (e : nat) : bool := Z.eqb (c_bind c e) (-1).
(** mark(): total_end_size_, GDynamicEngine.cpp 66-81. *)
Definition total_end (c : dcfg) : nat := length (ends (c_g c)).

(** Pending actions of a thread (its remaining program, head first). *)
Inductive op :=
| OProc (e : nat) (aff : bool)                 (* process(): test cur_status_, lines GDynamicEngine.cpp 124-128 *)
| OEnq (e : nat)                               (* thread_pool_->execute, GDynamicEngine.cpp 133-134 *)
| OExec (e : nat)                              (* innerExec(): refresh() and start of the element, GDynamicEngine.cpp 139-141 *)
| OBody (e : nat)                              (* fatProcessor(RUN) is running; ends with any status *)
| OErr (e : nat) (r : status)                  (* cur_status_ += curStatus under status_lock_, GDynamicEngine.cpp 146-149 *)
| ONotify                                      (* locker_.cv_.notify_one() without the mutex, 150 *)
| OAfter (e : nat)                             (* afterElementRun(): test and switch, GDynamicEngine.cpp 155-161 *)
| ODecs (e : nat) (l : list nat) (res : option nat) (* loop over run_before_, GDynamicEngine.cpp 164-175 *)
| OTail (e : nat)                              (* finished_end_size_.fetch_add, 188 *)
| OLockNotify.                                 (* lock mtx_, notify_one, unlock, GDynamicEngine.cpp 189-192 *)

(** Shared data. *)
Record shared := mkSh {
  sh_left : counters;     (* left_depend_ of every element *)
  sh_fin : nat;           (* finished_end_size_ *)
  sh_stat : status;       (* cur_status_ *)
  sh_tr : list gevent     (* events of the current run *)
}.

(** One action: new shared data, rest of the program in the same thread, tasks given to the pool, notify? *)
Definition op_sem (c : dcfg) (sh : shared) (o : op) (r : status) : shared * list op * list nat * bool :=
  let g := c_g c in
  match o with
  | OProc e aff =>
      if isErr (sh_stat sh) then (sh, [], [], false)
      else if aff && is_default c e then (sh, [OExec e], [], false) else (sh, [OEnq e], [], false)
  | OEnq e => (sh, [], [e], false)
  | OExec e =>
      (mkSh (upd (sh_left sh) e (left0 g e)) (sh_fin sh) (sh_stat sh) (sh_tr sh ++ [GStart e]), [OBody e], [], false)
  | OBody e =>
      let sh' := mkSh (sh_left sh) (sh_fin sh) (sh_stat sh) (sh_tr sh ++ [GFinish e r]) in
      if isErr r then (sh', [OErr e r; ONotify], [], false) else (sh', [OAfter e], [], false)
  | OErr e r0 => (mkSh (sh_left sh) (sh_fin sh) (st_plus (sh_stat sh) r0) (sh_tr sh), [], [], false)
  | ONotify => (sh, [], [], true)
  | OAfter e =>
      if isErr (sh_stat sh) then (sh, [], [], false)
      else match calc_shape g (c_bind c) e with
           | ShNormal => (sh, [ODecs e (succ g e) None], [], false)
           | ShLinkable => (sh, match succ g e with x :: _ => [OProc x true] | [] => [] end, [], false)
           | ShRoot => (sh, map (fun x => OProc x (Nat.eqb x (last (succ g e) 0))) (succ g e), [], false)
           | ShTail => (sh, [OTail e], [], false)
           end
  | ODecs e [] None => (sh, [], [], false)
  | ODecs e [] (Some x) => (sh, [OProc x true], [], false)
  | ODecs e (x :: l) res =>
      let v := (sh_left sh x - 1)%Z in
      let sh' := mkSh (upd (sh_left sh) x v) (sh_fin sh) (sh_stat sh) (sh_tr sh) in
      (* "--left_depend_ <= 0" on an unsigned counter *)
      if (v =? 0)%Z then
        match res with
        | Some y => (sh', [OProc x false; ODecs e l (Some y)], [], false)
        | None => (sh', [ODecs e l (Some x)], [], false)
        end
      else (sh', [ODecs e l res], [], false)
  | OTail e =>
      let n := S (sh_fin sh) in
      (mkSh (sh_left sh) n (sh_stat sh) (sh_tr sh), if Nat.eqb n (total_end c) then [OLockNotify] else [], [], false)
  | OLockNotify => (sh, [], [], true)
  end.

(** Control of the thread that calls run(). *)
Inductive mphase :=
| MIdle                    (* not inside run() *)
| MPrep                    (* prepareRun(), GDynamicEngine.cpp 307-315 *)
| MStore                   (* finished_end_size_.store(0), 57 *)
| MRun (l : list op)       (* loop over front_element_arr_, GDynamicEngine.cpp 58-60, incl. elements run in place *)
| MPoll (n : nat)          (* fatWait() busy polling, GDynamicEngine.cpp 208-215 *)
| MLock                    (* lock mtx_ / re-lock after a wake up, 217 *)
| MEvalFin                 (* predicate, first operand, holding mtx_ *)
| MEvalErr                 (* predicate, second operand, holding mtx_ *)
| MPreSleep                (* predicate was false, about to release mtx_ and sleep *)
| MAsleep                  (* blocked in cv_.wait *)
| MRet.                    (* return cur_status_, 47 *)
Definition holds_mutex (m : mphase) : bool :=
  match m with MEvalFin | MEvalErr | MPreSleep => true | _ => false end.

Record dst := mkD {
  d_sh : shared;
  d_pool : list nat;          (* tasks accepted by the pool, not yet taken *)
  d_act : list (list op);     (* programs of the busy workers *)
  d_main : mphase;
  d_out : option status       (* result of the last finished run *)
}.
Definition d_init (c : dcfg) : dst := mkD (mkSh (left0 (c_g c)) 0 st_default []) [] [] MIdle None.

Inductive dlabel :=
| LRun                     (* the user calls run() *)
| LMain (r : status)       (* one action of the calling thread; [r]: result if an element ends *)
| LWork (i : nat) (r : status)  (* one action of the i-th busy worker *)
| LPick (i : nat)          (* an idle worker takes the i-th waiting task *)
| LSpurious.               (* spurious wake up of the condition variable *)

Fixpoint remove_nth {A} (i : nat) (l : list A) : list A :=
  match i, l with O, _ :: r => r | S k, x :: r => x :: remove_nth k r | _, [] => [] end.
Fixpoint replace_nth {A} (i : nat) (x : A) (l : list A) : list A :=
  match i, l with O, _ :: r => x :: r | S k, y :: r => y :: replace_nth k x r | _, [] => [] end.

Definition wake (n : bool) (m : mphase) : mphase :=
  match m with MAsleep => if n then MLock else MAsleep | _ => m end.
(** An action that needs the mutex is not enabled while the caller holds it. *)
Definition op_enabled (m : mphase) (o : op) : bool :=
  match o with OLockNotify => negb (holds_mutex m) | _ => true end.

(** The front loop of commonRunAll, GDynamicEngine.cpp 58-60. *)
Definition front_ops (g : graph) : list op :=
  map (fun e => OProc e (Nat.eqb e (last (fronts g) 0))) (fronts g).

(** refresh() of every element (left counters only; done_ is not used by this engine). *)
Definition refresh_all (g : graph) (left : counters) : counters :=
  fun e => if memb e (els g) then left0 g e else left e.

Definition dstep (c : dcfg) (s : dst) (lb : dlabel) : option dst :=
  match lb with
  | LRun =>
      match d_main s with
      | MIdle => Some (mkD (mkSh (sh_left (d_sh s)) (sh_fin (d_sh s)) (sh_stat (d_sh s)) []) (d_pool s) (d_act s) MPrep None)
      | _ => None
      end
  | LSpurious =>
      match d_main s with
      | MAsleep => Some (mkD (d_sh s) (d_pool s) (d_act s) MLock (d_out s))
      | _ => None
      end
  | LPick i =>
      if Nat.ltb (length (d_act s)) (c_workers c) then
        match nth_error (d_pool s) i with
        | Some e => Some (mkD (d_sh s) (remove_nth i (d_pool s)) (d_act s ++ [[OExec e]]) (d_main s) (d_out s))
        | None => None
        end
      else None
  | LWork i r =>
      match nth_error (d_act s) i with
      | Some (o :: rest) =>
          if op_enabled (d_main s) o then
            let '(sh', new, enq, nt) := op_sem c (d_sh s) o r in
            let p := new ++ rest in
            Some (mkD sh' (d_pool s ++ enq)
                   (match p with [] => remove_nth i (d_act s) | _ => replace_nth i p (d_act s) end)
                   (wake nt (d_main s)) (d_out s))
          else None
      | _ => None
      end
  | LMain r =>
      let sh := d_sh s in
      match d_main s with
      | MIdle => None
      | MPrep =>
          let sh' := if isOK (sh_stat sh) then sh
                     else mkSh (refresh_all (c_g c) (sh_left sh)) (sh_fin sh) (st_reset (sh_stat sh)) (sh_tr sh) in
          Some (mkD sh' (d_pool s) (d_act s) MStore (d_out s))
      | MStore =>
          Some (mkD (mkSh (sh_left sh) 0 (sh_stat sh) (sh_tr sh)) (d_pool s) (d_act s) (MRun (front_ops (c_g c))) (d_out s))
      | MRun (o :: rest) =>
          let '(sh', new, enq, _) := op_sem c sh o r in
          Some (mkD sh' (d_pool s ++ enq) (d_act s) (MRun (new ++ rest)) (d_out s))
      | MRun [] => Some (mkD sh (d_pool s) (d_act s) (MPoll (c_epoch c)) (d_out s))
      | MPoll 0 => Some (mkD sh (d_pool s) (d_act s) MLock (d_out s))
      | MPoll (S n) =>
          Some (mkD sh (d_pool s) (d_act s) (if Nat.leb (total_end c) (sh_fin sh) then MRet else MPoll n) (d_out s))
      | MLock => Some (mkD sh (d_pool s) (d_act s) MEvalFin (d_out s))
      | MEvalFin =>
          Some (mkD sh (d_pool s) (d_act s) (if Nat.leb (total_end c) (sh_fin sh) then MRet else MEvalErr) (d_out s))
      | MEvalErr =>
          Some (mkD sh (d_pool s) (d_act s) (if isErr (sh_stat sh) then MRet else MPreSleep) (d_out s))
      | MPreSleep => Some (mkD sh (d_pool s) (d_act s) MAsleep (d_out s))
      | MAsleep => None
      | MRet => Some (mkD sh (d_pool s) (d_act s) MIdle (Some (sh_stat sh)))
      end
  end.

Fixpoint drun (c : dcfg) (s : dst) (ls : list dlabel) : option dst :=
  match ls with [] => Some s | l :: r => match dstep c s l with Some s' => drun c s' r | None => None end end.
