(** parallelRunAll of the dynamic engine (FastModel.v) on the thread pool (PoolModel.v): GDynamicEngine.cpp 228-288, UThreadPool.inl 58-82,
    UThreadPrimary.h 157-166, UWorkStealingQueue.h 45-53, UThreadBase.h 83-98. Rows with several elements go to the queue of the thread of the row
    through executeWithTid, others through execute. Task [e] is the task of element [e]; the tasks of others have other numbers.
    wakeupAllThread (250-253) is left out: a thread of the pool model may look for work at any time, so that waking it changes nothing there. *)
From Verif Require Export FastModel EngPoolModel.
Local Open Scope nat_scope.
Local Open Scope list_scope.

(** [pc_bind]: the binding index of an element; [pc_me]: the thread that calls run *)
Record pecfg := mkPEC { pc_c : pcfg; pc_bind : nat -> Z; pc_me : nat }.
(** The engine, the pool, and the threads that are inside parallelRunOne, in the order of the actions of the engine (p_act) *)
Record peng := mkPE { pe_s : pst; pe_p : pool; pe_who : list thr }.
Definition peng_new : peng := mkPE FastModel.p_init pool_new [].
(** All calls of one run, GDynamicEngine.cpp 232-248 *)
Definition run_calls (c : pecfg) : list plabel := matrix_calls (pc_bind c) (pc_me c) 0 (p_rows (pc_c c)).
(** What the running index and the queue decide is chosen at the time of the call, see LSubmit *)
Definition with_choice (busy : bool) (a : nat) (g : plabel) : plabel := match g with LSubmit t i _ _ => LSubmit t i busy a | _ => g end.
(** The call that belongs to the next element of the loop *)
Definition next_call (c : pecfg) (m : pphase) (busy : bool) (a : nat) : option plabel :=
  match m with
  | QPush (e :: l) => option_map (with_choice busy a) (nth_error (run_calls c) (length (concat (p_rows (pc_c c))) - length (e :: l)))
  | _ => None
  end.
(** Who executes tasks is decided by the pool: the engine knows no number of workers *)
Definition wide (c : pcfg) (s : pst) : pcfg := mkPC (p_els c) (p_rows c) (S (length (p_act s))) (p_epoch c).
Inductive ylabel :=
| YEng (l : dlabel) (busy : bool) (a : nat)   (* an action of the engine, by the thread that called run or a thread inside parallelRunOne *)
| YPool (l : plabel).                         (* an action of the pool, or of others who use it *)
Definition ystep (c : pecfg) (k : cfg) (s : peng) (l : ylabel) : option peng :=
  match l with
  | YEng (LPick _) _ _ => None
  | YEng l busy a =>
      match pstep (wide (pc_c c) (pe_s s)) (pe_s s) l with
      | None => None
      | Some d =>
          let who := match l with LWork i _ => if Nat.ltb (length (p_act d)) (length (p_act (pe_s s))) then remove_nth i (pe_who s) else pe_who s | _ => pe_who s end in
          match (match l with LMain _ => next_call c (p_main (pe_s s)) busy a | _ => None end) with
          | None => Some (mkPE d (pe_p s) who)
          | Some g => match pool_step k (pe_p s) g with Next p => Some (mkPE d p who) | _ => None end
          end
      end
  | YPool l =>
      if existsb (fun t => memb t (p_els (pc_c c))) (given1 l) || inside (pe_who s) l || match l with LTid u _ _ _ _ => Nat.eqb u (pc_me c) | _ => false end then None
      else match pool_step k (pe_p s) l with
           | Next p =>
               match executes (pe_p s) l with
               | Some (w, t) =>
                   if memb t (p_els (pc_c c)) then
                     match pstep (wide (pc_c c) (pe_s s)) (pe_s s) (LPick (index_of t (p_pool (pe_s s)))) with
                     | Some d => Some (mkPE d p (pe_who s ++ [w]))
                     | None => None
                     end
                   else Some (mkPE (pe_s s) p (pe_who s))
               | None => Some (mkPE (pe_s s) p (pe_who s))
               end
           | _ => None
           end
  end.
Fixpoint yrun (c : pecfg) (k : cfg) (s : peng) (ls : list ylabel) : option peng :=
  match ls with [] => Some s | l :: r => match ystep c k s l with None => None | Some s1 => yrun c k s1 r end end.
