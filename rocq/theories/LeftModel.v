(** What a run of the dynamic engine leaves behind, seen from the pipeline: run, destroy and deletion of a pipeline around DynModel.
    GPipeline::run, src/GraphCtrl/GraphPipeline/GPipeline.cpp 56-77: param_manager_->setup(), element_manager_->run(), which is engine_->run() (GraphElement/GElementManager.cpp 57-63), then param_manager_->resetWithStatus().
    GPipeline::destroy, 80-105: schedule_.destroy() first (_GSchedule/GSchedule.cpp 36-46: a thread pool of the pipeline's own is deleted, one that is shared is left alone), then element_manager_->destroy().
    GPipeline::~GPipeline, 25-33: the elements are deleted; the schedule is a member and destroyed after that.
    The threads of the pool go on whatever the owner does. Simplified: setup and reset of all parameters are one action each; no timeouts, events, daemons and stages; destroy of every element succeeds;
    init after destroy is left out; the single threads of the pool are stopped together. *)
From Verif Require Export DynModel.
Local Open Scope nat_scope.
Local Open Scope list_scope.

(** What can be observed. *)
Inductive lev :=
| VSetup                       (* run is called; parameters are set up *)
| VEv (x : gevent)             (* an element starts, or ends with a status *)
| VReset                       (* parameters are reset *)
| VRet (r : status)            (* run returns *)
| VDestroy (e : nat)           (* destroy() of an element *)
| VDelete (e : nat).           (* an element is deleted *)
(** Where the owner of the pipeline is. *)
Inductive lph :=
| HOut                         (* initialised, in no call *)
| HIn                          (* in engine_->run() *)
| HBack (r : status)           (* it has returned, 69 *)
| HRet (r : status)            (* parameters have been reset, 73 *)
| HJoin                        (* in destroy, before the schedule is destroyed, 91 *)
| HDes (l : list nat)          (* elements still to destroy, 96 *)
| HOver                        (* destroyed *)
| HDel (l : list nat)          (* in ~GPipeline, elements still to delete, 28 *)
| HGone.
Record lst := mkL { l_e : dst; l_h : lph; l_log : list lev }.
Definition l_new (c : dcfg) : lst := mkL (d_init c) HOut [].
Inductive llabel :=
| CRun | CDestroy | CDelete    (* the owner calls run, destroy, or deletes the pipeline *)
| CNext                        (* next action of the owner outside of the engine *)
| CEng (l : dlabel).           (* an action of the engine or of a thread of the pool *)
(** The events of [sh'] that [sh] does not have yet. *)
Definition fresh_events (sh sh' : shared) : list lev := map VEv (skipn (length (sh_tr sh)) (sh_tr sh')).
(** The thread pool of the pipeline is deleted: every thread ends the task it has, UThreadPool.cpp 141-176 and UThreadBase.h (join); tasks that nobody took are dropped (C70). *)
Definition pool_gone (s : dst) : option dst := match d_act s with [] => Some (mkD (d_sh s) [] [] (d_main s) (d_out s)) | _ => None end.

Definition lstep (c : dcfg) (shared : bool) (s : lst) (l : llabel) : option lst :=
  match l, l_h s with
  | CRun, HOut => match dstep c (l_e s) LRun with Some e => Some (mkL e HIn (l_log s ++ [VSetup])) | None => None end
  | CEng LRun, _ => None
  | CEng x, h =>
      match dstep c (l_e s) x with
      | None => None
      | Some e => Some (mkL e (match h, d_out e with HIn, Some r => HBack r | _, _ => h end) (l_log s ++ fresh_events (d_sh (l_e s)) (d_sh e)))
      end
  | CNext, HBack r => Some (mkL (l_e s) (HRet r) (l_log s ++ [VReset]))
  | CNext, HRet r => Some (mkL (l_e s) HOut (l_log s ++ [VRet r]))
  | CDestroy, HOut => Some (mkL (l_e s) HJoin (l_log s))
  | CNext, HJoin => if shared then Some (mkL (l_e s) (HDes (els (c_g c))) (l_log s)) else match pool_gone (l_e s) with Some e => Some (mkL e (HDes (els (c_g c))) (l_log s)) | None => None end
  | CNext, HDes (e :: r) => Some (mkL (l_e s) (HDes r) (l_log s ++ [VDestroy e]))
  | CNext, HDes [] => Some (mkL (l_e s) HOver (l_log s))
  | CDelete, HOut | CDelete, HOver => Some (mkL (l_e s) (HDel (els (c_g c))) (l_log s))
  | CNext, HDel (e :: r) => Some (mkL (l_e s) (HDel r) (l_log s ++ [VDelete e]))
  | CNext, HDel [] => Some (mkL (l_e s) HGone (l_log s))
  | _, _ => None
  end.
Fixpoint lrun (c : dcfg) (shared : bool) (s : lst) (ls : list llabel) : option lst :=
  match ls with [] => Some s | l :: r => match lstep c shared s l with Some s' => lrun c shared s' r | None => None end end.
