(** Data under the engines. The elements of a pipeline share memory: the parameters (GElement::getGParam gives a pointer, src/GraphCtrl/GraphParam/GParamManagerWrapper.h 43-58) and whatever the user's classes point to. What an element does
    between its start and its end (GElement::fatProcessor, src/GraphCtrl/GraphElement/GElement.cpp 221-286, the user's run() inside) is here a program of reads and writes that ends with a status; the programs of elements that
    are executed at the same time interleave, one read or write at a time. The engine decides where the starts and ends are (WholeModel.engine_run).
    Simplified: memory holds numbers; programs end; no weak memory (a program whose unordered elements do not conflict cannot tell). *)
From Verif Require Export GraphModel StatusModel.
From Coq Require Import ZArith.
Local Open Scope nat_scope.
Local Open Scope list_scope.

Definition mem := nat -> Z.
Inductive prog := Ret (r : status) | Read (x : nat) (k : Z -> prog) | Write (x : nat) (v : Z) (k : prog).
(** One thing that happens: an element starts, does its next read or write, or ends. *)
Inductive dev := Begin (e : nat) | Act (e : nat) | End (e : nat).
(** [x_tr]: the starts and ends so far, with the status of the ends, as the engine sees them. *)
Record xst := mkX { x_mem : mem; x_cur : nat -> option prog; x_tr : list gevent }.
Definition x_new (m : mem) : xst := mkX m (fun _ => None) [].
Section X.
Variable body : nat -> prog.
Definition xone (s : xst) (v : dev) : option xst :=
  match v with
  | Begin e => Some (mkX (x_mem s) (upd (x_cur s) e (Some (body e))) (x_tr s ++ [GStart e]))
  | Act e => match x_cur s e with
             | Some (Read x k) => Some (mkX (x_mem s) (upd (x_cur s) e (Some (k (x_mem s x)))) (x_tr s))
             | Some (Write x v k) => Some (mkX (upd (x_mem s) x v) (upd (x_cur s) e (Some k)) (x_tr s))
             | _ => None
             end
  | End e => match x_cur s e with
             | Some (Ret r) => Some (mkX (x_mem s) (upd (x_cur s) e None) (x_tr s ++ [GFinish e r]))
             | _ => None
             end
  end.
Fixpoint xall (s : xst) (t : list dev) : option xst := match t with [] => Some s | v :: r => match xone s v with Some s' => xall s' r | None => None end end.
End X.
