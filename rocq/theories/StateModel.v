(** Cancel, suspend and resume: GPipeline::cancel, suspend, resume, process (src/GraphCtrl/GraphPipeline/GPipeline.cpp 105-123, 181-197),
    GElementRepository::setup, pushAllState, isCancelState (GElementRepository.cpp 36-41, 62-77, 105-112), and the places of
    GElement::fatProcessor (GElement.cpp 242-256) and checkSuspend (441-450) where the state is read.
    The owner of the pipeline, one controlling thread and a thread for each element interleave freely. Simplified: elements are
    numbered in the order of the repository's set; the engine may start any element at any time (every order of every engine is among these),
    and need not start more once one has failed; aspects are left out (ElemModel); the state TIMEOUT is left out (TimeoutModel);
    setup, which pushes NORMAL, does not overlap a call of the controlling thread (cur_state_ of the repository is not atomic). *)
From Verif Require Export ListUtil.
From Coq Require Export Lia Bool.
Local Open Scope list_scope.

Inductive estate := Normal | Cancelled | Suspended.
Definition estate_eqb a b := match a, b with Normal, Normal | Cancelled, Cancelled | Suspended, Suspended => true | _, _ => false end.
(** Where an element is in fatProcessor; [i] iterations have been started. *)
Inductive epc :=
| ENot                     (* not started in this run *)
| ETest (i : nat)          (* about to evaluate the loop condition, 242 *)
| EBody (i : nat)          (* in run() *)
| ECheck (i : nat) (ok : bool)    (* about to call checkSuspend, 442; ok: the status so far *)
| ELock (i : nat) (ok : bool)     (* about to lock and evaluate the predicate, GElement.cpp 446-448 *)
| EFall (i : nat) (ok : bool)     (* the predicate was false; not waiting yet *)
| ESleep (i : nat) (ok woken : bool)
| EHold (i : nat) (ok : bool)     (* about to evaluate isHold, 254 *)
| EFin (ok : bool).
(** The controlling thread inside pushAllState: about to store to, or to notify, the first element of the list. *)
Inductive cpc := CIdle | CStore (x : estate) (todo : list nat) | CNote (x : estate) (todo : list nat).
(** The owner: outside, in process with [k] runs left about to test (GPipeline.cpp 112-114), about to run setup, while the engine runs. [None]: run was called directly. *)
Inductive mph := MOut | MTest (k : nat) (ok : bool) | MSetup (o : option nat) | MGo (o : option nat).
Inductive kev := KReq (x : estate) | KRet (x : estate) | KBegin | KEnd (ok : bool) | KDone | KStart (e : nat) | KAgain (e : nat) | KFail (e : nat) | KSkip (e : nat).
Record kst := mkK { k_n : nat; k_loop : nat -> nat; k_st : nat -> estate; k_repo : estate; k_ctl : cpc; k_main : mph; k_pc : nat -> epc; k_log : list kev }.
Definition k_new (n : nat) (lp : nat -> nat) : kst := mkK n lp (fun _ => Normal) Normal CIdle MOut (fun _ => ENot) [].
Inductive klabel :=
| LCall (x : estate)     (* cancel, suspend or resume is called *)
| LCtl                   (* next action of the controlling thread *)
| LProcess (k : nat) | LRun   (* process(k) (after init), run *)
| LMain                  (* next action of the owner *)
| LElem (e : nat) (b thr : bool).   (* next action of an element; b: the engine starts it / run() returned OK / isHold / woken for no reason; thr: run() throws *)

Definition set_main s m lg := mkK (k_n s) (k_loop s) (k_st s) (k_repo s) (k_ctl s) m (k_pc s) (lg ++ k_log s).
Definition set_ctl s c lg := mkK (k_n s) (k_loop s) (k_st s) (k_repo s) c (k_main s) (k_pc s) (lg ++ k_log s).
Definition set_pc s e p lg := mkK (k_n s) (k_loop s) (k_st s) (k_repo s) (k_ctl s) (k_main s) (upd (k_pc s) e p) (lg ++ k_log s).
Definition fin (p : epc) : bool := match p with EFin _ => true | _ => false end.
Definition failed (p : epc) : bool := match p with EFin false => true | _ => false end.
Definition idle_pc (p : epc) : bool := match p with EFin _ | ENot => true | _ => false end.
(** The engine has finished: everything was executed, or something failed and nothing is being executed. *)
Definition engine_done (s : kst) : bool :=
  (forallb (fun e => fin (k_pc s e)) (seq 0 (k_n s)) || (existsb (fun e => failed (k_pc s e)) (seq 0 (k_n s)) && forallb (fun e => idle_pc (k_pc s e)) (seq 0 (k_n s)))).
Definition all_ok (s : kst) : bool := forallb (fun e => negb (failed (k_pc s e))) (seq 0 (k_n s)).
Definition in_run (m : mph) : bool := match m with MGo _ => true | _ => false end.
Definition k_step (s : kst) (l : klabel) : option kst :=
  match l with
  | LCall x => (* GPipeline.cpp 181-197, GElementRepository.cpp 62-66 *)
      match k_ctl s with
      | CIdle => if estate_eqb (k_repo s) x then Some (set_ctl s CIdle [KRet x; KReq x]) else Some (set_ctl s (CStore x (seq 0 (k_n s))) [KReq x])
      | _ => None
      end
  | LCtl => (* GElementRepository.cpp 68-76 *)
      match k_ctl s with
      | CIdle => None
      | CStore x [] => Some (mkK (k_n s) (k_loop s) (k_st s) x CIdle (k_main s) (k_pc s) (KRet x :: k_log s))
      | CStore x (e :: r) => Some (mkK (k_n s) (k_loop s) (upd (k_st s) e x) (k_repo s) (if estate_eqb x Suspended then CStore x r else CNote x (e :: r)) (k_main s) (k_pc s) (k_log s))
      | CNote x [] => None
      | CNote x (e :: r) => Some (mkK (k_n s) (k_loop s) (k_st s) (k_repo s) (CStore x r) (k_main s) (match k_pc s e with ESleep i ok _ => upd (k_pc s) e (ESleep i ok true) | _ => k_pc s end) (k_log s))
      end
  | LProcess k => match k_main s with MOut => Some (set_main s (MTest k true) []) | _ => None end
  | LRun => match k_main s with MOut => Some (set_main s (MSetup None) []) | _ => None end
  | LMain =>
      match k_main s with
      | MOut => None
      | MTest k ok => (* GPipeline.cpp 110-119 *)
          match k with
          | O => Some (set_main s MOut [KDone])
          | S k' => if ok && negb (estate_eqb (k_repo s) Cancelled) then Some (set_main s (MSetup (Some k')) []) else Some (set_main s MOut [KDone])
          end
      | MSetup o => (* 68, GElementRepository.cpp 36-41 *)
          match k_ctl s with
          | CIdle => Some (mkK (k_n s) (k_loop s) (if estate_eqb (k_repo s) Normal then k_st s else fun _ => Normal) Normal CIdle (MGo o) (fun _ => ENot) (KBegin :: k_log s))
          | _ => None
          end
      | MGo o => if engine_done s then Some (set_main s (match o with None => MOut | Some k => MTest k (all_ok s) end) [KEnd (all_ok s)]) else None
      end
  | LElem e b thr =>
      if Nat.ltb e (k_n s) && in_run (k_main s) then
        match k_pc s e with
        | ENot => if b then Some (set_pc s e (ETest 0) []) else None
        | ETest i => (* GElement.cpp 242 *)
            if Nat.ltb i (k_loop s e) then
              if estate_eqb (k_st s e) Normal then Some (set_pc s e (EBody (S i)) [KStart e]) else Some (set_pc s e (EFin true) [KSkip e])
            else Some (set_pc s e (EFin true) [])
        | EBody i => if thr then Some (set_pc s e (EFin false) [KFail e])                              (* GElement.cpp 280-283 *)
                     else Some (set_pc s e (ECheck i b) (if b then [] else [KFail e]))
        | ECheck i ok => if estate_eqb (k_st s e) Suspended then Some (set_pc s e (ELock i ok) []) else Some (set_pc s e (EHold i ok) [])
        | ELock i ok => if estate_eqb (k_st s e) Suspended then Some (set_pc s e (EFall i ok) []) else Some (set_pc s e (EHold i ok) [])
        | EFall i ok => Some (set_pc s e (ESleep i ok false) [])
        | ESleep i ok w => if w || b then Some (set_pc s e (ELock i ok) []) else None
        | EHold i ok => if b && ok then Some (set_pc s e (EBody i) [KAgain e]) else if ok then Some (set_pc s e (ETest i) []) else Some (set_pc s e (EFin false) [])
        | EFin _ => None
        end
      else None
  end.
Fixpoint k_run (s : kst) (ls : list klabel) : option kst :=
  match ls with [] => Some s | l :: r => match k_step s l with Some s' => k_run s' r | None => None end end.
