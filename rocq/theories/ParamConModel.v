(** Parameters used by several threads at once (elements of one pipeline that run at the same time):
    src/GraphCtrl/GraphParam/GParamManager.{inl,cpp}, GParamManagerWrapper.h 26-75, at the level of single accesses.
    create, remove, getKeys and has hold the manager's mutex, get does not. A lookup and a change of the unordered_map take
    time; a change which overlaps with another access is a data race, hence undefined. What an operation does to the map and
    answers is that of ParamModel, at the moment when its last access to the map ends.
    Simplified: concerned_params_ belongs to the element, and an element is run by one thread at a time, so that its update is
    part of the same step. The backtrace has its own lock (C50) and is only read as far as the object must exist. *)
From Verif Require Export ParamModel.
Local Open Scope nat_scope.
Local Open Scope list_scope.

(** Operations of a thread: [PCreate], [PCreatePy], [PGet], [PRemove], [PKeys], [PHas]. *)
Definition is_get (o : pop) : bool := match o with PGet _ _ _ => true | _ => false end.
Definition allowed (o : pop) : bool :=
  match o with PCreate _ _ | PCreatePy _ _ | PGet _ _ _ | PRemove _ | PKeys | PHas _ => true | _ => false end.
(** After the lookup: does the operation go on to change the map? create: GParamManager.inl 23-34; __create_4py:
    GParamManager.cpp 106-110; removeByKey 80-86, __remove_4py 129-134. *)
Definition changes (m : pmap) (o : pop) : bool :=
  match o with
  | PCreate k _ | PCreatePy k _ => match pfind k m with Some _ => false | None => true end
  | PRemove k => match pfind k m with Some _ => true | None => false end
  | _ => false
  end.

(** Where a thread is: not in an operation; called (and possibly waiting for the mutex); looking up; changing the map; done
    with the map but not yet returned. *)
Inductive cpc := Idle | Want (o : pop) | Look (o : pop) | Change (o : pop) | Out (o : pop) (a : pans).
(** What can be observed: calls, returns; and the moments when an operation takes effect. *)
Inductive cev := ECall (t : nat) (o : pop) | EAcc (t : nat) (o : pop) (a : pans) | ERet (t : nat) (o : pop) (a : pans).
Record cst := mkCS { cs_ps : pst; cs_lock : option nat; cs_pc : nat -> cpc; cs_tr : list cev }.
(** The accesses that took effect so far, in order. *)
Definition acc_of (e : cev) : list (nat * pop * pans) := match e with EAcc t o a => [(t, o, a)] | _ => [] end.
Definition accs (tr : list cev) : list (nat * pop * pans) := flat_map acc_of tr.
Definition c_ops (tr : list cev) : list pop := map (fun x => snd (fst x)) (accs tr).

Section N.
(** Threads are 0, ..., [N] - 1. *)
Variable N : nat.
Definition others (t : nat) : list nat := filter (fun u => negb (Nat.eqb u t)) (seq 0 N).
Definition changing (p : cpc) : bool := match p with Change _ => true | _ => false end.
Definition looking (p : cpc) : bool := match p with Look _ => true | _ => false end.
(** Is another thread changing the map; is another thread at the map at all? *)
Definition writer (s : cst) (t : nat) : bool := existsb (fun u => changing (cs_pc s u)) (others t).
Definition busy (s : cst) (t : nat) : bool := existsb (fun u => changing (cs_pc s u) || looking (cs_pc s u)) (others t).

(** [CUndef]: a data race, or the use of a deleted object. [CStuck]: the label cannot happen now. *)
Inductive cout := CRun (s : cst) | CUndef | CStuck.
Inductive clabel :=
| LCall (t : nat) (o : pop)    (* thread t calls operation o *)
| LGo (t : nat)                (* thread t goes on *)
| LUse (t obj : nat).          (* thread t uses an object that it got before *)
Definition set_pc (s : cst) (t : nat) (p : cpc) : cst := mkCS (cs_ps s) (cs_lock s) (upd (cs_pc s) t p) (cs_tr s).
Definition take_effect (s : cst) (t : nat) (o : pop) : cst :=
  let '(ps, a) := p_step (length (c_ops (cs_tr s))) (cs_ps s) o in
  mkCS ps (cs_lock s) (upd (cs_pc s) t (Out o a)) (cs_tr s ++ [EAcc t o a]).
Definition cstep (s : cst) (l : clabel) : cout :=
  match l with
  | LCall t o =>
      if (t <? N) && allowed o then
        match cs_pc s t with
        | Idle => CRun (mkCS (cs_ps s) (cs_lock s) (upd (cs_pc s) t (Want o)) (cs_tr s ++ [ECall t o]))
        | _ => CStuck
        end
      else CStuck
  | LUse t obj =>
      if existsb (fun x => match x with (u, PGet _ _ _, AObj (Some q)) => Nat.eqb u t && Nat.eqb q obj | _ => false end) (accs (cs_tr s))
      then if memb obj (ps_freed (cs_ps s)) then CUndef else CRun s
      else CStuck
  | LGo t =>
      match cs_pc s t with
      | Idle => CStuck
      | Want o =>
          (* CGRAPH_LOCK_GUARD lock(this->mutex_), unless it is a get; then find *)
          if is_get o then (if writer s t then CUndef else CRun (set_pc s t (Look o)))
          else match cs_lock s with
               | Some _ => CStuck
               | None => if writer s t then CUndef else CRun (mkCS (cs_ps s) (Some t) (upd (cs_pc s) t (Look o)) (cs_tr s))
               end
      | Look o =>
          if changes (ps_map (cs_ps s)) o then (if busy s t then CUndef else CRun (set_pc s t (Change o)))
          else CRun (take_effect s t o)
      | Change o => CRun (take_effect s t o)
      | Out o a =>
          (* getGParam, GParamManagerWrapper.h 47: param->addBacktrace; for the others the guard releases the mutex *)
          match o, a with
          | PGet _ _ _, AObj (Some obj) =>
              if memb obj (ps_freed (cs_ps s)) then CUndef
              else CRun (mkCS (cs_ps s) (cs_lock s) (upd (cs_pc s) t Idle) (cs_tr s ++ [ERet t o a]))
          | PGet _ _ _, _ => CRun (mkCS (cs_ps s) (cs_lock s) (upd (cs_pc s) t Idle) (cs_tr s ++ [ERet t o a]))
          | _, _ => CRun (mkCS (cs_ps s) None (upd (cs_pc s) t Idle) (cs_tr s ++ [ERet t o a]))
          end
      end
  end.
Fixpoint crun (s : cst) (ls : list clabel) : cout :=
  match ls with [] => CRun s | l :: r => match cstep s l with CRun s' => crun s' r | x => x end end.
End N.
Definition cs_new : cst := mkCS ps_new None (fun _ => Idle) [].
