(** Stages, src/GraphCtrl/GraphStage/GStage.cpp 33-47 and GStageManager.h. Any number of threads enter one stage. The critical
    section of waiting() is one step (it holds locker_.mtx_); a waiting thread sleeps on the condition variable, is woken by
    notify_all or spuriously, and then tests the predicate again once it has the mutex. *)
From Verif Require Export ListUtil.
From Coq Require Import ZArith Lia.
Local Open Scope nat_scope.
Local Open Scope list_scope.

Inductive sstate :=
| SOut                     (* not in waiting() *)
| SSleep (e : nat)         (* in cv_.wait, 44; e: ghost, the number of entries before this one *)
| SWoken (e : nat).        (* notified or woken spuriously, mutex not yet held *)
Record stg := mkSG
  { sg_thr : Z;            (* threshold_, a CInt *)
    sg_cur : nat;          (* cur_value_ (never negative) *)
    sg_th : nat -> sstate;
    sg_ent : nat;          (* ghost: entries so far *)
    sg_launch : nat }.     (* calls of launch() so far *)
Definition sg_new (thr : Z) : stg := mkSG thr 0 (fun _ => SOut) 0 0.
Inductive slabel :=
| SEnter (t : nat)         (* a thread calls waiting() and gets the mutex *)
| SResume (t : nat)        (* a woken thread gets the mutex *)
| SSpurious (t : nat).
Definition wake (x : sstate) : sstate := match x with SSleep e => SWoken e | _ => x end.
(** The wait predicate, 45 *)
Definition sg_open (s : stg) : bool := Nat.eqb (sg_cur s) 0 || (sg_thr s <=? Z.of_nat (sg_cur s))%Z.
Definition sg_step (s : stg) (l : slabel) : option stg :=
  match l with
  | SEnter t =>
      match sg_th s t with
      | SOut =>
          let c := S (sg_cur s) in
          if (sg_thr s <=? Z.of_nat c)%Z then
            (* launch, reset, notify_all, return: GStage.cpp 36-42 *)
            Some (mkSG (sg_thr s) 0 (fun u => wake (sg_th s u)) (S (sg_ent s)) (S (sg_launch s)))
          else
            (* first test of the predicate by wait: GStage.cpp 44-46 *)
            let s' := mkSG (sg_thr s) c (sg_th s) (S (sg_ent s)) (sg_launch s) in
            Some (if sg_open s' then s' else mkSG (sg_thr s) c (upd (sg_th s) t (SSleep (sg_ent s))) (S (sg_ent s)) (sg_launch s))
      | _ => None
      end
  | SResume t =>
      match sg_th s t with
      | SWoken e => Some (mkSG (sg_thr s) (sg_cur s) (upd (sg_th s) t (if sg_open s then SOut else SSleep e)) (sg_ent s) (sg_launch s))
      | _ => None
      end
  | SSpurious t =>
      match sg_th s t with
      | SSleep e => Some (mkSG (sg_thr s) (sg_cur s) (upd (sg_th s) t (SWoken e)) (sg_ent s) (sg_launch s))
      | _ => None
      end
  end.
Fixpoint sg_run (s : stg) (ls : list slabel) : option stg :=
  match ls with [] => Some s | l :: r => match sg_step s l with Some s' => sg_run s' r | None => None end end.

(** * The stage manager: key -> threshold of the stage stored under it *)
Definition smap := nat -> option Z.
(** create, GStageManager.h 65-73: insert does nothing when the key is present; always OK. *)
Definition sm_create (k : nat) (thr : Z) (m : smap) : smap * bool :=
  (match m k with Some _ => m | None => upd m k (Some thr) end, true).
(** __create_4py, GStageManager.h 99-108 *)
Definition sm_create_py (k : nat) (thr : Z) (m : smap) : smap * bool :=
  match m k with Some _ => (m, false) | None => (upd m k (Some thr), true) end.
(** waitForReady, GStageManager.h 80-87: the stage entered, or an error *)
Definition sm_wait (k : nat) (m : smap) : option Z := m k.
