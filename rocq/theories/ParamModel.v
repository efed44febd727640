(** Parameters shared through a pipeline (GParam) and local to an element (GElementParam):
    src/GraphCtrl/GraphParam/GParamManager.{inl,cpp}, GParamManagerWrapper.h, src/GraphCtrl/GraphElement/GElement.inl 48-76.
    Keys and types are nats. An object is named by the number of the call that allocated it. Each call is one atomic step:
    create, remove, clear and getKeys hold the manager's mutex; get does not, so a get concurrent with a create is a data
    race and outside this model. *)
From Verif Require Export ListUtil.
From Coq Require Import Lia.
Local Open Scope nat_scope.
Local Open Scope list_scope.

(** A stored parameter: its dynamic type, the object, the key_ field of the object ([None]: never set). *)
Record prm := mkP { p_type : nat; p_obj : nat; p_name : option nat }.
Definition pmap := list (nat * prm).
(** unordered_map::find *)
Fixpoint pfind (k : nat) (m : pmap) : option prm :=
  match m with [] => None | (k', p) :: r => if Nat.eqb k k' then Some p else pfind k r end.
(** unordered_map::erase *)
Definition perase (k : nat) (m : pmap) : pmap := filter (fun e => negb (Nat.eqb (fst e) k)) m.

Record pst := mkPS
  { ps_map : pmap;                      (* GParamManager::params_map_ *)
    ps_freed : list nat;                (* deleted objects, newest first *)
    ps_conc : nat -> list prm;          (* concerned_params_ of each element *)
    ps_local : nat -> pmap;             (* local_params_ of each element *)
    ps_init : nat -> bool }.            (* is_init_ of each element *)
Definition ps_new : pst := mkPS [] [] (fun _ => []) (fun _ => []) (fun _ => false).

Inductive pop :=
| PCreate (k t : nat)          (* createGParam<t>(k) *)
| PCreatePy (k t : nat)        (* __createGParam_4py with an object of type t *)
| PGet (e k t : nat)           (* element e: getGParam<t>(k) *)
| PRemove (k : nat)            (* removeGParam(k), also __removeGParam_4py *)
| PKeys                        (* getGParamKeys *)
| PHas (k : nat)               (* __hasGParam_4py *)
| PClear                       (* GParamManager::clear, from the destructor *)
| PRound (e : nat)             (* element e starts a round of processing *)
| PConcerned (e : nat)         (* getConcernedGParamKeys of e *)
| PInit (e : nat)              (* e becomes initialised *)
| PAddE (e k t : nat)          (* e->addEParam<t>(k, .) *)
| PGetE (e k t : nat).         (* e->getEParam<t>(k) *)
Inductive pans :=
| AOk | AErr | AThrow
| AObj (o : option nat)        (* the object returned, or null *)
| AKeys (l : list nat)
| ANames (l : list (option nat))
| ABool (b : bool)
| AUB.                         (* a deleted object is dereferenced *)

Definition set_map (m : pmap) (s : pst) := mkPS m (ps_freed s) (ps_conc s) (ps_local s) (ps_init s).
Definition set_freed (f : list nat) (s : pst) := mkPS (ps_map s) f (ps_conc s) (ps_local s) (ps_init s).
Definition set_conc (c : nat -> list prm) (s : pst) := mkPS (ps_map s) (ps_freed s) c (ps_local s) (ps_init s).
Definition set_local (l : nat -> pmap) (s : pst) := mkPS (ps_map s) (ps_freed s) (ps_conc s) l (ps_init s).
Definition set_init (i : nat -> bool) (s : pst) := mkPS (ps_map s) (ps_freed s) (ps_conc s) (ps_local s) i.

(** GParamManager::create, GParamManager.inl 18-36 *)
Definition pm_create (n k t : nat) (s : pst) : pst * pans :=
  match pfind k (ps_map s) with
  | Some p => (s, if Nat.eqb (p_type p) t then AOk else AErr)
  | None => (set_map ((k, mkP t n (Some k)) :: ps_map s) s, AOk)
  end.
(** GParamManager::__create_4py, GParamManager.cpp 103-113: key_ is not set; the first object is kept, always OK. *)
Definition pm_create_py (n k t : nat) (s : pst) : pst * pans :=
  match pfind k (ps_map s) with
  | Some _ => (s, AOk)
  | None => (set_map ((k, mkP t n None) :: ps_map s) s, AOk)
  end.
(** GParamManager::get, GParamManager.inl 39-53 *)
Definition pm_get (k t : nat) (s : pst) : option prm :=
  match pfind k (ps_map s) with Some p => if Nat.eqb t (p_type p) then Some p else None | None => None end.
(** std::set::insert of the object's address *)
Definition conc_add (p : prm) (l : list prm) : list prm := if memb (p_obj p) (map p_obj l) then l else p :: l.
(** getGParam, GParamManagerWrapper.h 42-51 (the backtrace is ContModel's [bt_step]) *)
Definition w_get (e k t : nat) (s : pst) : pst * pans :=
  match pm_get k t s with
  | Some p => (set_conc (upd (ps_conc s) e (conc_add p (ps_conc s e))) s, AObj (Some (p_obj p)))
  | None => (s, AObj None)
  end.
(** GParamManager::removeByKey, GParamManager.cpp 77-88; __remove_4py, 126-137 *)
Definition pm_remove (k : nat) (s : pst) : pst * pans :=
  match pfind k (ps_map s) with
  | Some p => (set_freed (p_obj p :: ps_freed s) (set_map (perase k (ps_map s)) s), AOk)
  | None => (s, AErr)
  end.
(** GParamManager::clear, GParamManager.cpp 48-57 *)
Definition pm_clear (s : pst) : pst := set_freed (map (fun e => p_obj (snd e)) (ps_map s) ++ ps_freed s) (set_map [] s).
(** getConcernedGParamKeys, GParamManagerWrapper.h 92-98 (in insertion order; the set is ordered by address) *)
Definition w_concerned (e : nat) (s : pst) : pans :=
  if existsb (fun p => memb (p_obj p) (ps_freed s)) (ps_conc s e) then AUB else ANames (map p_name (ps_conc s e)).
(** GElement::addEParam, GElement.inl 48-62: refused by an exception once initialised; an old object is deleted. *)
Definition e_add (n e k t : nat) (s : pst) : pst * pans :=
  if ps_init s e then (s, AThrow)
  else
    let old := match pfind k (ps_local s e) with Some p => [p_obj p] | None => [] end in
    (set_freed (old ++ ps_freed s) (set_local (upd (ps_local s) e ((k, mkP t n None) :: perase k (ps_local s e))) s), AOk).
(** GElement::getEParam, GElement.inl 65-76 *)
Definition e_get (e k t : nat) (s : pst) : option nat :=
  match pfind k (ps_local s e) with Some p => if Nat.eqb t (p_type p) then Some (p_obj p) else None | None => None end.

Definition p_step (n : nat) (s : pst) (o : pop) : pst * pans :=
  match o with
  | PCreate k t => pm_create n k t s
  | PCreatePy k t => pm_create_py n k t s
  | PGet e k t => w_get e k t s
  | PRemove k => pm_remove k s
  | PKeys => (s, AKeys (map fst (ps_map s)))        (* getKeys, GParamManager.cpp 91-100 *)
  | PHas k => (s, ABool (match pfind k (ps_map s) with Some _ => true | None => false end))
  | PClear => (pm_clear s, AOk)
  | PRound e => (set_conc (upd (ps_conc s) e []) s, AOk)   (* GElement.cpp 262 *)
  | PConcerned e => (s, w_concerned e s)
  | PInit e => (set_init (upd (ps_init s) e true) s, AOk)
  | PAddE e k t => e_add n e k t s
  | PGetE e k t => (s, AObj (e_get e k t s))
  end.
Fixpoint p_run (n : nat) (s : pst) (h : list pop) : pst :=
  match h with [] => s | o :: r => p_run (S n) (fst (p_step n s o)) r end.
(** The state after a history, and the answer of the next call. *)
Definition p_after (h : list pop) : pst := p_run 0 ps_new h.
Definition p_answer (h : list pop) (o : pop) : pans := snd (p_step (length h) (p_after h) o).
