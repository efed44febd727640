(** The common path of the dynamic engine (DynModel.v) on the thread pool (PoolModel.v): what the engine gives to execute is what the
    pool is given, with the binding index of the element, and a thread of the pool that comes to the task of an element executes innerExec
    of the engine: GDynamicEngine.cpp 124-136, UThreadPool.inl 58-71, UThreadBase.h 83-98. Others may use the same pool.
    Task [e] is the task of element [e]; the tasks of others have other numbers. *)
From Verif Require Export DynModel DynProps BindSpec.
Local Open Scope nat_scope.
Local Open Scope list_scope.

(** The engine, the pool, and the threads that are inside innerExec, in the order of the programs of the engine (d_act) *)
Record eng := mkE { e_d : dst; e_p : pool; e_who : list thr }.
Definition eng_new (c : dcfg) : eng := mkE (d_init c) pool_new [].
(** The element given to the pool by an action of the engine *)
Definition gives (d : dst) (l : dlabel) : option nat :=
  match l with
  | LWork i _ => match nth_error (d_act d) i with Some (OEnq e :: _) => Some e | _ => None end
  | LMain _ => match d_main d with MRun (OEnq e :: _) => Some e | _ => None end
  | _ => None
  end.
Definition thr_eqb (a b : thr) : bool :=
  match a, b with Prim i, Prim j => Nat.eqb i j | Sec i, Sec j => Nat.eqb i j | _, _ => false end.
(** A thread inside innerExec does not come to its next action of the pool *)
Definition inside (who : list thr) (l : plabel) : bool :=
  match l with LPrim i _ => existsb (thr_eqb (Prim i)) who | LSec j _ => existsb (thr_eqb (Sec j)) who | _ => false end.
Fixpoint index_of (e : nat) (l : list nat) : nat := match l with [] => 0 | x :: r => if Nat.eqb x e then 0 else S (index_of e r) end.
Inductive elabel :=
| EDyn (l : dlabel) (busy : bool) (a : nat)   (* an action of the engine, by the thread that called run or a thread inside innerExec; busy and a: see LSubmit *)
| EPool (l : plabel).                         (* an action of the pool, or of others who use it *)
Definition estep (c : dcfg) (k : cfg) (s : eng) (l : elabel) : option eng :=
  match l with
  | EDyn (LPick _) _ _ => None
  | EDyn l busy a =>
      match dstep c (e_d s) l with
      | None => None
      | Some d =>
          let who := match l with LWork i _ => if Nat.ltb (length (d_act d)) (length (d_act (e_d s))) then remove_nth i (e_who s) else e_who s | _ => e_who s end in
          match gives (e_d s) l with
          | None => Some (mkE d (e_p s) who)
          | Some e => match pool_step k (e_p s) (LSubmit e (c_bind c e) busy a) with Next p => Some (mkE d p who) | _ => None end
          end
      end
  | EPool l =>
      if existsb (fun t => memb t (els (c_g c))) (given1 l) || inside (e_who s) l then None
      else match pool_step k (e_p s) l with
           | Next p =>
               match executes (e_p s) l with
               | Some (w, t) =>
                   if memb t (els (c_g c)) then
                     match dstep c (e_d s) (LPick (index_of t (d_pool (e_d s)))) with
                     | Some d => Some (mkE d p (e_who s ++ [w]))
                     | None => None
                     end
                   else Some (mkE (e_d s) p (e_who s))
               | None => Some (mkE (e_d s) p (e_who s))
               end
           | _ => None
           end
  end.
Fixpoint erun (c : dcfg) (k : cfg) (s : eng) (ls : list elabel) : option eng :=
  match ls with [] => Some s | l :: r => match estep c k s l with None => None | Some s1 => erun c k s1 r end end.

(** The calls that parallelRunAll makes for its matrix, GDynamicEngine.cpp 232-248: a row with several elements goes to the thread of its number, whatever
    the bindings of its elements; [p]: the caller; [i]: the number of the first row *)
Fixpoint row_calls (p i : nat) (first : bool) (row : list nat) : list plabel :=
  match row with
  | [] => []
  | [e] => [LTid p e (Z.of_nat i) true first]
  | e :: r => LTid p e (Z.of_nat i) first first :: row_calls p i false r
  end.
Fixpoint matrix_calls (bind : nat -> Z) (p i : nat) (rows : list (list nat)) : list plabel :=
  match rows with
  | [] => []
  | [e] :: r => LSubmit e (bind e) false 0 :: matrix_calls bind p (S i) r
  | row :: r => row_calls p i true row ++ matrix_calls bind p (S i) r
  end.
