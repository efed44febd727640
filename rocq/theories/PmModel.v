(** The pipeline manager, src/GraphCtrl/GraphPipeline/GPipelineManager.cpp. Pipelines are nats (pointers, never null). add,
    remove, clear, fetch and release are atomic (they hold mutex_); run() is a fetch, the run of the pipeline, and a release,
    with anything in between. *)
From Verif Require Export ListUtil.
From Coq Require Import Lia.
Local Open Scope nat_scope.
Local Open Scope list_scope.

Record pman := mkPM
  { pm_free : list nat; pm_used : list nat; pm_init : bool;
    pm_pinit : nat -> bool;                (* is_init_ of the pipelines *)
    pm_run : nat -> option nat }.          (* threads inside run(): the pipeline they run *)
Definition pm_new : pman := mkPM [] [] false (fun _ => false) (fun _ => None).
Inductive pop :=
| GAdd (p : nat) | GRemove (p : nat) | GClear | GFetch | GRelease (p : nat) | GFind (p : nat) | GSize
| GInit (ok : nat -> bool)        (* ok: what init of each pipeline answers *)
| GDestroy (ok : nat -> bool)
| GRunBegin (u : nat)             (* thread u calls run(): up to the fetch *)
| GRunEnd (u : nat) (ok : bool).  (* its pipeline's run returned: to the end *)
Inductive pans := GOk | GErr | GThrow | GPipe (p : option nat) | GBool (b : bool) | GNum (n : nat).
Definition set_lists (f u : list nat) (s : pman) : pman := mkPM f u (pm_init s) (pm_pinit s) (pm_run s).
(** std::list::remove *)
Definition lremove (p : nat) (l : list nat) : list nat := filter (fun x => negb (Nat.eqb x p)) l.
(** fetch, GPipelineManager.cpp 144-156 *)
Definition pm_fetch (s : pman) : pman * option nat :=
  match pm_free s with [] => (s, None) | p :: r => (set_lists r (pm_used s ++ [p]) s, Some p) end.
(** release, GPipelineManager.cpp 159-175 *)
Definition pm_release (p : nat) (s : pman) : pman * bool :=
  if memb p (pm_used s) then (set_lists (p :: pm_free s) (lremove p (pm_used s)) s, true) else (s, false).
(** The loop of init, GPipelineManager.cpp 23-25: pipeline->init() throws when the pipeline is initialised (GPipeline.cpp 36); otherwise it is
    initialised exactly when it answers OK. None: thrown. The flags are those at the end or at the throw. *)
Fixpoint init_loop (ok : nat -> bool) (l : list nat) (f : nat -> bool) (acc : bool) : (nat -> bool) * option bool :=
  match l with
  | [] => (f, Some acc)
  | p :: r => if f p then (f, None) else init_loop ok r (upd f p (ok p)) (acc && ok p)
  end.
(** The loop of destroy, GPipelineManager.cpp 59-61: pipeline->destroy() throws when the pipeline is not initialised. *)
Fixpoint destroy_loop (ok : nat -> bool) (l : list nat) (f : nat -> bool) (acc : bool) : (nat -> bool) * option bool :=
  match l with
  | [] => (f, Some acc)
  | p :: r => if f p then destroy_loop ok r (upd f p (negb (ok p))) (acc && ok p) else (f, None)
  end.
Definition pm_step (s : pman) (o : pop) : option (pman * pans) :=
  match o with
  | GAdd p => (* GPipelineManager.cpp 68-79 *)
      Some (if pm_init s then (s, GThrow) else (set_lists (pm_free s ++ [p]) (pm_used s) s, GOk))
  | GRemove p => (* GPipelineManager.cpp 119-130 *)
      Some (if pm_init s then (s, GThrow) else (set_lists (lremove p (pm_free s)) (pm_used s) s, GOk))
  | GClear => (* GPipelineManager.cpp 82-97 *)
      Some (if pm_init s then (s, GThrow) else (set_lists [] [] s, GOk))
  | GFetch => let '(s', p) := pm_fetch s in Some (s', GPipe p)
  | GRelease p => let '(s', b) := pm_release p s in Some (s', if b then GOk else GErr)
  | GFind p => (* GPipelineManager.cpp 100-116 *) Some (s, GBool (memb p (pm_used s) || memb p (pm_free s)))
  | GSize => (* GPipelineManager.cpp 133-136 *) Some (s, GNum (length (pm_free s) + length (pm_used s)))
  | GInit ok => (* GPipelineManager.cpp 15-29 *)
      Some (if pm_init s then (s, GThrow)
            else match pm_used s with
                 | _ :: _ => (s, GErr)
                 | [] => match init_loop ok (pm_free s) (pm_pinit s) true with
                         | (f, None) => (mkPM (pm_free s) (pm_used s) false f (pm_run s), GThrow)
                         | (f, Some b) => (mkPM (pm_free s) (pm_used s) b f (pm_run s), if b then GOk else GErr)
                         end
                 end)
  | GDestroy ok => (* GPipelineManager.cpp 51-66 *)
      Some (if negb (pm_init s) then (s, GThrow)
            else match pm_used s with
                 | _ :: _ => (s, GErr)
                 | [] => match destroy_loop ok (pm_free s) (pm_pinit s) true with
                         | (f, None) => (mkPM (pm_free s) (pm_used s) true f (pm_run s), GThrow)
                         | (f, Some b) => (mkPM (pm_free s) (pm_used s) (negb b) f (pm_run s), if b then GOk else GErr)
                         end
                 end)
  | GRunBegin u => (* GPipelineManager.cpp 32-37 *)
      match pm_run s u with
      | Some _ => None
      | None => Some (if negb (pm_init s) then (s, GThrow)
                      else match pm_fetch s with
                           | (s', None) => (s', GErr)
                           | (s', Some p) => (mkPM (pm_free s') (pm_used s') (pm_init s') (pm_pinit s') (upd (pm_run s') u (Some p)), GPipe (Some p))
                           end)
      end
  | GRunEnd u ok => (* GPipelineManager.cpp 43-47 *)
      match pm_run s u with
      | None => None
      | Some p => let '(s', b) := pm_release p s in
                  Some (mkPM (pm_free s') (pm_used s') (pm_init s') (pm_pinit s') (upd (pm_run s') u None), if ok && b then GOk else GErr)
      end
  end.
(** A history with the answers given, newest first. *)
Fixpoint pm_after (h : list (pop * pans)) : option pman :=
  match h with
  | [] => Some pm_new
  | (o, a) :: r => match pm_after r with
                   | Some s => match pm_step s o with Some (s', a') => Some s' | None => None end
                   | None => None
                   end
  end.
(** The answers in the history are those given. *)
Fixpoint pm_valid (h : list (pop * pans)) : Prop :=
  match h with
  | [] => True
  | (o, a) :: r => pm_valid r /\ match pm_after r with Some s => exists s', pm_step s o = Some (s', a) | None => False end
  end.
