(** GStaticEngine::run as a transition system (src/GraphCtrl/GraphElement/_GEngine/GStaticEngine/GStaticEngine.cpp 48-77). *)
From Verif Require Export GraphModel.
Local Open Scope nat_scope.

(** Actions of the calling thread, in program order. *)
Inductive sact :=
| ACommit (e : nat)       (* GStaticEngine.cpp 59-62: thread_pool_->commit(...) *)
| AMacroStart (e : nat)   (* GStaticEngine.cpp 66-68: macro->fatProcessor(RUN) begins on the calling thread *)
| AMacroFinish (e : nat)  (* 67: it returns, status += *)
| AGet (e : nat)          (* GStaticEngine.cpp 70-72: status += future.get() *)
| ACheck.                 (* 73: CGRAPH_FUNCTION_CHECK_STATUS *)

(** [inl e] = isMacro() && isDefaultBinding() (GStaticEngine.cpp 55). One layer: lines 52-73. *)
Definition layer_prog (inl : nat -> bool) (arr : list nat) : list sact :=
  map ACommit (filter (fun e => negb (inl e)) arr) ++
  flat_map (fun e => [AMacroStart e; AMacroFinish e]) (filter inl arr) ++
  map AGet (filter (fun e => negb (inl e)) arr) ++ [ACheck].
Definition static_prog (inl : nat -> bool) (mat : list (list nat)) : list sact := flat_map (layer_prog inl) mat.

(** The pool is abstracted to: a committed task is started by some worker at any later time and finishes at any
    later time with any status (thread pool: PoolModel). *)
Record sst := mkS {
  s_main : list sact;               (* remaining program of the calling thread *)
  s_queue : list nat;               (* committed, not started *)
  s_running : list nat;             (* started by a worker *)
  s_futs : list (nat * status);     (* finished: value of the future *)
  s_stat : status;                  (* local variable status *)
  s_tr : list gevent;
  s_out : option eng_result
}.
Definition s_init (inl : nat -> bool) (mat : list (list nat)) : sst :=
  mkS (static_prog inl mat) [] [] [] st_default [] None.

Inductive slabel :=
| SMain (r : status)               (* one action of the caller; [r] is the result of a macro *)
| SStart (e : nat)                 (* a worker starts a committed task *)
| SFinish (e : nat) (r : status).  (* a worker finishes it *)

Fixpoint lookup (e : nat) (l : list (nat * status)) : option status :=
  match l with [] => None | (x, s) :: r => if Nat.eqb x e then Some s else lookup e r end.
Fixpoint remove1 (e : nat) (l : list nat) : option (list nat) :=
  match l with [] => None | x :: r => if Nat.eqb x e then Some r else option_map (cons x) (remove1 e r) end.

Definition sstep (s : sst) (l : slabel) : option sst :=
  match l with
  | SStart e =>
      match remove1 e (s_queue s) with
      | Some q => Some (mkS (s_main s) q (e :: s_running s) (s_futs s) (s_stat s) (s_tr s ++ [GStart e]) (s_out s))
      | None => None
      end
  | SFinish e r =>
      match remove1 e (s_running s) with
      | Some q => Some (mkS (s_main s) (s_queue s) q ((e, r) :: s_futs s) (s_stat s) (s_tr s ++ [GFinish e r]) (s_out s))
      | None => None
      end
  | SMain r =>
      match s_out s with
      | Some _ => None
      | None =>
          match s_main s with
          | [] => Some (mkS [] (s_queue s) (s_running s) (s_futs s) (s_stat s) (s_tr s) (Some (EReturn (s_stat s))))
          | ACommit e :: m => Some (mkS m (s_queue s ++ [e]) (s_running s) (s_futs s) (s_stat s) (s_tr s) None)
          | AMacroStart e :: m => Some (mkS m (s_queue s) (s_running s) (s_futs s) (s_stat s) (s_tr s ++ [GStart e]) None)
          | AMacroFinish e :: m => Some (mkS m (s_queue s) (s_running s) (s_futs s) (st_plus (s_stat s) r) (s_tr s ++ [GFinish e r]) None)
          | AGet e :: m =>
              match lookup e (s_futs s) with
              | Some v => Some (mkS m (s_queue s) (s_running s) (s_futs s) (st_plus (s_stat s) v) (s_tr s) None)
              | None => None
              end
          | ACheck :: m =>
              match check_status (s_stat s) with
              | Continue => Some (mkS m (s_queue s) (s_running s) (s_futs s) (s_stat s) (s_tr s) None)
              | ReturnStatus v => Some (mkS (s_main s) (s_queue s) (s_running s) (s_futs s) (s_stat s) (s_tr s) (Some (EReturn v)))
              | ThrowExc m' => Some (mkS (s_main s) (s_queue s) (s_running s) (s_futs s) (s_stat s) (s_tr s) (Some (EThrow m')))
              end
          end
      end
  end.

Fixpoint srun (s : sst) (ls : list slabel) : option sst :=
  match ls with [] => Some s | l :: r => match sstep s l with Some s' => srun s' r | None => None end end.
