(** Which thread of the pool executes a task; about the pool of PoolModel.v. *)
From Verif Require Export PoolModel PoolSpec.
Local Open Scope Z_scope.
Local Open Scope list_scope.

Inductive thr := Prim (i : nat) | Sec (j : nat).
(** The task that a step executes, and the thread *)
Definition executes (s : pool) (l : plabel) : option (thr * nat) :=
  match l with
  | LPrim i _ => match p_pt s i with PRun (t :: _) => Some (Prim i, t) | _ => None end
  | LSec j _ => match p_st s j with SRun (t :: _) => Some (Sec j, t) | _ => None end
  | _ => None
  end.
(** Thread [i] itself, or one of the primary threads that come up to max_task_steal_range_ (and at most all others) before it in the circle *)
Definition near (c : cfg) (w : thr) (i : nat) : Prop :=
  exists k d, w = Prim k /\ (k < c_def c)%nat /\ Nat.modulo (k + d) (c_def c) = i
              /\ (d = 0%nat \/ Z.of_nat d <= Z.min (c_range c) (Z.of_nat (c_def c) - 1)).
Definition is_thread (c : cfg) (idx : Z) : Prop := 0 <= idx < Z.of_nat (c_def c).
(** Where the task of a call may be executed: index of a thread: near it; long time strategy and priority: by a secondary thread; else
    anywhere *)
Definition may (c : cfg) (w : thr) (l : plabel) : Prop :=
  match l with
  | LSubmit _ idx _ _ => (is_thread c idx -> near c w (Z.to_nat idx)) /\ (idx = -101 -> exists j, w = Sec j)
  | LTid _ _ tid _ _ => is_thread c tid -> near c w (Z.to_nat tid)
  | LPrio _ _ _ _ => exists j, w = Sec j
  | _ => False
  end.
(** The call gives the task to thread [i] by its index *)
Definition gives_to (i t : nat) (l : plabel) : Prop :=
  match l with
  | LSubmit t' idx _ _ => t' = t /\ idx = Z.of_nat i
  | LTid _ t' tid _ _ => t' = t /\ tid = Z.of_nat i
  | _ => False
  end.
(** No thread takes from another one *)
Definition no_stealing (c : cfg) : Prop := c_range c <= 0 \/ c_def c = 1%nat.
(** [t1] was executed before [t2]; the log has the newest first *)
Definition ran_before (s : pool) (t1 t2 : nat) : Prop := exists a b d, p_log s = a ++ t2 :: b ++ t1 :: d.
