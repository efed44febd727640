(** Several pipelines on one thread pool: GPipeline::setSharedThreadPool (GPipeline.cpp 252-257) hands the pool of the user to GSchedule::makeType
    (GSchedule.cpp 52-60), GSchedule::init (GSchedule.cpp 13-32) leaves it as it is, and every pipeline gets it from GSchedule::getThreadPool
    (GSchedule.cpp 63-69). Each pipeline has its own dynamic engine on its common path (DynModel.v, EngPoolModel.v); its caller and the threads of the pool that
    are inside its elements act on its engine, and what its engine gives to execute goes to the one pool.
    Task [e] is the task of element [e]: elements of different pipelines are different objects and have different numbers. The pipelines are [0 .. n-1].
    Simplified: the pool has been initialised by LInit before the first run; the registration of the pool in each pipeline is not a step (PipeModel.v has it). *)
From Verif Require Export EngPoolModel ListUtil.
Local Open Scope nat_scope.
Local Open Scope list_scope.

(** The pool; of every pipeline the engine (GDynamicEngine.h 106-117) and the threads inside its elements *)
Record many := mkMany { y_p : pool; y_d : nat -> dst; y_w : nat -> list thr }.
(** All pipelines are initialised, none has run: GSchedule.cpp 13-32 *)
Definition many_new (cs : nat -> dcfg) : many := mkMany pool_new (fun q => d_init (cs q)) (fun _ => []).
(** One pipeline and the pool: what a pipeline sees through GSchedule::getThreadPool, GSchedule.cpp 63-69 *)
Definition view (s : many) (q : nat) : eng := mkE (y_d s q) (y_p s) (y_w s q).
Definition put_view (s : many) (q : nat) (e : eng) : many := mkMany (e_p e) (upd (y_d s) q (e_d e)) (upd (y_w s) q (e_who e)).
(** The pipeline a task belongs to: the closure that process() gives to execute has its own engine as this, GDynamicEngine.cpp 129-136 *)
Definition owner (cs : nat -> dcfg) (n t : nat) : option nat := find (fun q => memb t (els (c_g (cs q)))) (seq 0 n).
Definition owned (cs : nat -> dcfg) (n t : nat) : bool := match owner cs n t with Some _ => true | None => false end.
Inductive ylabel :=
| YDyn (q : nat) (l : dlabel) (busy : bool) (a : nat)   (* an action of the engine of pipeline [q], see EDyn *)
| YPool (l : plabel).                                   (* an action of the pool, or of others who use it, see EPool *)
(** A thread that comes to a task of an element executes innerExec of the engine the task belongs to (GDynamicEngine.cpp 129-136, 139-152); a thread inside
    an element of any pipeline does not come to its next action of the pool (UThreadBase.h 83-98) *)
Definition ystep (n : nat) (cs : nat -> dcfg) (k : cfg) (s : many) (l : ylabel) : option many :=
  match l with
  | YDyn q l busy a =>
      if Nat.ltb q n then match estep (cs q) k (view s q) (EDyn l busy a) with Some e => Some (put_view s q e) | None => None end else None
  | YPool l =>
      if existsb (owned cs n) (given1 l) || existsb (fun q => inside (y_w s q) l) (seq 0 n) then None
      else match pool_step k (y_p s) l with
           | Next p =>
               match executes (y_p s) l with
               | Some (w, t) =>
                   match owner cs n t with
                   | Some q =>
                       match dstep (cs q) (y_d s q) (LPick (index_of t (d_pool (y_d s q)))) with
                       | Some d => Some (mkMany p (upd (y_d s) q d) (upd (y_w s) q (y_w s q ++ [w])))
                       | None => None
                       end
                   | None => Some (mkMany p (y_d s) (y_w s))
                   end
               | None => Some (mkMany p (y_d s) (y_w s))
               end
           | _ => None
           end
  end.
Fixpoint yrun (n : nat) (cs : nat -> dcfg) (k : cfg) (s : many) (ls : list ylabel) : option many :=
  match ls with [] => Some s | l :: r => match ystep n cs k s l with None => None | Some s1 => yrun n cs k s1 r end end.
