(** Who executes a bound element *)
From Verif Require Export EngPoolModel.
Local Open Scope list_scope.

(** The thread inside which the body of an element starts with a step; [None]: the thread that called run *)
Definition starts_in (s : eng) (l : elabel) : option thr := match l with EDyn (LWork i _) _ _ => nth_error (e_who s) i | _ => None end.
(** The thread a binding index asks for, or one that may take its tasks; a long element asks for a secondary thread *)
Definition obeys (k : cfg) (idx : Z) (w : thr) : Prop :=
  (is_thread k idx -> near k w (Z.to_nat idx)) /\ (idx = (-101)%Z -> exists j, w = Sec j).
(** The actions of the engine and of the pool in a history of both *)
Fixpoint dyn_part (c : dcfg) (k : cfg) (s : eng) (ls : list elabel) : list dlabel :=
  match ls with
  | [] => []
  | l :: r =>
      match estep c k s l with
      | None => []
      | Some s1 =>
          (match l with
           | EDyn l _ _ => [l]
           | EPool l => match executes (e_p s) l with Some (_, t) => if memb t (els (c_g c)) then [LPick (index_of t (d_pool (e_d s)))] else [] | None => [] end
           end) ++ dyn_part c k s1 r
      end
  end.
Fixpoint pool_part (c : dcfg) (k : cfg) (s : eng) (ls : list elabel) : list plabel :=
  match ls with
  | [] => []
  | l :: r =>
      match estep c k s l with
      | None => []
      | Some s1 =>
          (match l with
           | EDyn l busy a => match gives (e_d s) l with Some e => [LSubmit e (c_bind c e) busy a] | None => [] end
           | EPool l => [l]
           end) ++ pool_part c k s1 r
      end
  end.
