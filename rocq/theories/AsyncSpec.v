(** What asynchronous calls should mean: calls without steps, one after the other. *)
From Verif Require Export AsyncModel.
Local Open Scope list_scope.

(** All elements until the first error; every body finds the parameters set up *)
Fixpoint b_els (u : user) (l : list nat) (tr : list vis) : list vis * bool :=
  match l with
  | [] => (tr, true)
  | e :: r => let tr1 := tr ++ [VStart e true] in
              if u_body u tr1 e then b_els u r (tr1 ++ [VEnd e true]) else (tr1 ++ [VEnd e false], false)
  end.
Definition b_run (u : user) (tr : list vis) : list vis * bool :=
  let '(tr1, ok) := b_els u (u_els u) (tr ++ [VSetup]) in (tr1 ++ [VReset], ok).
Fixpoint b_runs (u : user) (n : nat) (tr : list vis) : list vis * bool :=
  match n with 0 => (tr, true) | S m => let '(tr1, ok) := b_run u tr in if ok then b_runs u m tr1 else (tr1, false) end.
(** run() and process(n) of a pipeline: initialised before; trace before; initialised after, trace after, OK or error *)
Definition b_job (u : user) (j : job) (i : bool) (tr : list vis) : bool * list vis * bool :=
  match j with
  | JRun => if i then let '(tr1, ok) := b_run u tr in (true, tr1, ok) else (false, tr, false)
  | JProcess n =>
      if i then (true, tr, false)
      else if u_init u tr then let '(tr1, ok) := b_runs u n (tr ++ [VInit]) in (false, tr1 ++ [VDestroy], ok)
      else (false, tr ++ [VInit], false)
  end.
(** A future: the status it will give, or the call it will make when it is asked *)
Inductive bfut := BReady (ok : bool) | BLazy (j : job).
Record bst := mkB { b_init : bool; b_tr : list vis; b_fut : nat -> option bfut }.
(** One call of the user, with its answer; an asynchronous call is made at once, a deferred one when its future is asked *)
Definition b_op (u : user) (s : bst) (o : aop) : bst * aans :=
  match o with
  | OInit => if b_init s then (s, RStatus false) else (mkB (u_init u (b_tr s)) (b_tr s ++ [VInit]) (b_fut s), RStatus (u_init u (b_tr s)))
  | ODestroy => if b_init s then (mkB false (b_tr s ++ [VDestroy]) (b_fut s), RStatus true) else (s, RStatus false)
  | OCall j => let '(i, tr, ok) := b_job u j (b_init s) (b_tr s) in (mkB i tr (b_fut s), RStatus ok)
  | OAsync k j p =>
      match b_fut s k with
      | Some _ => (s, RNone)
      | None =>
          if Bool.eqb (b_init s) (job_init j) then
            match p with
            | Async => let '(i, tr, ok) := b_job u j (b_init s) (b_tr s) in (mkB i tr (upd (b_fut s) k (Some (BReady ok))), RVoid)
            | Deferred => (mkB (b_init s) (b_tr s) (upd (b_fut s) k (Some (BLazy j))), RVoid)
            end
          else (s, RThrow)
      end
  | OGet k =>
      match b_fut s k with
      | None => (s, RNone)
      | Some (BReady ok) => (mkB (b_init s) (b_tr s) (upd (b_fut s) k None), RStatus ok)
      | Some (BLazy j) => let '(i, tr, ok) := b_job u j (b_init s) (b_tr s) in (mkB i tr (upd (b_fut s) k None), RStatus ok)
      end
  | ODrop k => match b_fut s k with None => (s, RNone) | Some _ => (mkB (b_init s) (b_tr s) (upd (b_fut s) k None), RVoid) end
  | OUser => (s, RVoid)
  end.
Fixpoint b_prog (u : user) (s : bst) (prog : list aop) : bst * list aans :=
  match prog with [] => (s, []) | o :: r => let '(s1, a) := b_op u s o in let '(s2, l) := b_prog u s1 r in (s2, a :: l) end.
Definition b_new : bst := mkB false [] (fun _ => None).
(** The user asks or drops the future of an asynchronous call before the next call of the pipeline; [wait]: the future to be asked.
    Nothing is required of deferred calls. *)
Fixpoint tidy (wait : option nat) (prog : list aop) : Prop :=
  match prog with
  | [] => wait = None
  | o :: r =>
      match wait with
      | Some k => match o with OUser => tidy (Some k) r | OGet k' | ODrop k' => k' = k /\ tidy None r | _ => False end
      | None => match o with OAsync k _ Async => tidy (Some k) r | _ => tidy None r end
      end
  end.
(** The program has come to its end *)
Definition finished (s : sys) : Prop := s_now s = None /\ s_todo s = [].
(** A trace in which the body of an element starts although it is being executed *)
Definition overlap (tr : list vis) (e : nat) : Prop :=
  exists a p b q d, tr = a ++ VStart e p :: b ++ VStart e q :: d /\ (forall ok, ~ In (VEnd e ok) b).
