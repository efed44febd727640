(** The static engine (StaticModel.v) on the thread pool (PoolModel.v): src/GraphCtrl/GraphElement/_GEngine/GStaticEngine/GStaticEngine.cpp 48-77.
    What the engine commits is given to the pool with the binding index of the element (59-62, UThreadPool.inl 15-25 and 58-71), a thread of the pool
    that comes to the task of an element executes its fatProcessor, and the thread that called run waits for the futures (70-72).
    Others may use the same pool. Task [e] is the task of element [e]; the tasks of others have other numbers. *)
From Verif Require Export StaticModel EngPoolModel.
Local Open Scope nat_scope.
Local Open Scope list_scope.

(** What the engine knows after setup: which elements are macros, element_mat_, and the binding index of each element *)
Record secfg := mkSC { sc_macro : nat -> bool; sc_mat : list (list nat); sc_bind : nat -> Z }.
(** isMacro() && isDefaultBinding(), 55: executed by the caller *)
Definition sc_inl (c : secfg) (e : nat) : bool := sc_macro c e && Z.eqb (sc_bind c e) (-1).
(** The engine, the pool, and the threads that are inside the fatProcessor of an element *)
Record seng := mkSE { se_s : sst; se_p : pool; se_who : list (thr * nat) }.
(** Before the first run *)
Definition s_none : sst := mkS [] [] [] [] st_default [] (Some (EReturn st_default)).
Definition seng_new : seng := mkSE s_none pool_new [].
Inductive xlabel :=
| XRun                                       (* run is called, again or for the first time *)
| XMain (r : status) (busy : bool) (a : nat) (* the thread that called run acts; [r]: the answer of a macro; busy and a: see LSubmit *)
| XDone (w : thr) (r : status)               (* a thread of the pool finishes the element it is in *)
| XPool (l : plabel).                        (* an action of the pool, or of others who use it *)
(** The element committed by the next action of the caller, GStaticEngine.cpp 59-62 *)
Definition commits (s : sst) : option nat := match s_main s with ACommit e :: _ => Some e | _ => None end.
Fixpoint who_has (w : thr) (l : list (thr * nat)) : option nat :=
  match l with [] => None | (v, e) :: r => if thr_eqb w v then Some e else who_has w r end.
Fixpoint who_out (w : thr) (l : list (thr * nat)) : list (thr * nat) :=
  match l with [] => [] | (v, e) :: r => if thr_eqb w v then r else (v, e) :: who_out w r end.
Definition xstep (c : secfg) (k : cfg) (s : seng) (l : xlabel) : option seng :=
  match l with
  | XRun => match s_out (se_s s) with None => None | Some _ => Some (mkSE (s_init (sc_inl c) (sc_mat c)) (se_p s) (se_who s)) end
  | XMain r busy a =>
      match sstep (se_s s) (SMain r) with
      | None => None
      | Some d =>
          match commits (se_s s) with
          | None => Some (mkSE d (se_p s) (se_who s))
          | Some e => match pool_step k (se_p s) (LSubmit e (sc_bind c e) busy a) with Next p => Some (mkSE d p (se_who s)) | _ => None end
          end
      end
  | XDone w r =>
      match who_has w (se_who s) with
      | None => None
      | Some e => match sstep (se_s s) (SFinish e r) with Some d => Some (mkSE d (se_p s) (who_out w (se_who s))) | None => None end
      end
  | XPool l =>
      if existsb (fun t => memb t (concat (sc_mat c))) (given1 l) || inside (map fst (se_who s)) l then None
      else match pool_step k (se_p s) l with
           | Next p =>
               match executes (se_p s) l with
               | Some (w, t) =>
                   if memb t (concat (sc_mat c)) then match sstep (se_s s) (SStart t) with Some d => Some (mkSE d p (se_who s ++ [(w, t)])) | None => None end
                   else Some (mkSE (se_s s) p (se_who s))
               | None => Some (mkSE (se_s s) p (se_who s))
               end
           | _ => None
           end
  end.
Fixpoint xrun (c : secfg) (k : cfg) (s : seng) (ls : list xlabel) : option seng :=
  match ls with [] => Some s | l :: r => match xstep c k s l with None => None | Some s1 => xrun c k s1 r end end.
