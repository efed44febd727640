(** Nested groups on one thread pool: which threads are blocked while the children of a group wait in the queues of the pool.
    GDynamicEngine.cpp 51-63 (commonRunAll), 124-152 (process, innerExec), 155-203 (afterElementRun), 206-226 (fatWait), 229-267 (parallelRunAll), 291-304 (serialRunAll);
    GRegion.cpp run; GCluster.cpp 19-27; GMultiCondition.inl 44-86; UThreadPool.inl 57-82; UThreadPrimary.h 91-109.

    One label: a worker takes tasks from one queue, or a thread does its next action. The end of an element, the update of the counters of its successors and the
    release of those that are ready is one action here (DynModel has the single accesses for one engine). Simplified: every element succeeds, is executed once
    (loop 1) and has no timeout; some-groups are left out; conditions are the sequence of the children they choose. *)
From Verif Require Export ListUtil.
Local Open Scope nat_scope.
Local Open Scope list_scope.

(** How the body of an element works: [KNode] user code; [KSeq] the children one after the other in the same thread (cluster, condition, serial multi-condition, a region
    or pipeline whose elements form a chain); [KPar] the children are given to the pool as their dependencies allow, and the thread waits for all of them (other regions
    and pipelines, parallel multi-conditions). *)
Inductive nkind := KNode | KSeq | KPar.
Record plan := mkPlan {
  e_all : list nat;
  e_root : nat;                (* the pipeline *)
  e_kind : nat -> nkind;
  e_kids : nat -> list nat;
  e_par : nat -> nat;          (* the group an element is in *)
  e_dep : nat -> list nat      (* dependence_, among the children of one group *)
}.
(** What a thread still has to do, next action first (its call stack). *)
Inductive nop := Run (e : nat) | Wait (g : nat) | End (e : nat).
Record nst := mkN {
  n_prog : nat -> list nop;    (* thread 0: the caller of the pipeline; 1, 2, ...: the threads of the pool *)
  n_q : list (nat * nat);      (* tasks given to the pool: queue, element *)
  n_begun : list nat;          (* elements, in the order in which they were started *)
  n_done : list nat;
  n_over : list nat;           (* groups whose wait is over *)
  n_taken : list nat           (* tasks taken from the queues *)
}.
Definition n_init (p : plan) : nst := mkN (fun t => if Nat.eqb t 0 then [Run (e_root p)] else []) [] [] [] [] [].

Definition is_par (p : plan) (e : nat) : bool := match e_kind p e with KPar => true | _ => false end.
(** Children without dependencies: mark, GDynamicEngine.cpp 66-81. *)
Definition fronts (p : plan) (g : nat) : list nat := filter (fun c => match e_dep p c with [] => true | _ => false end) (e_kids p g).
(** Children of [g] that become ready with the end of [e]; [dn]: finished, [e] among them: GDynamicEngine.cpp 164-186. *)
Definition freed (p : plan) (dn : list nat) (g e : nat) : list nat := filter (fun c => memb e (e_dep p c) && forallb (fun d => memb d dn) (e_dep p c)) (e_kids p g).
(** Of the elements that became ready at most one is executed by the thread itself (affinity, 130; never one with its own binding), which is [own]; the others are given to
    the pool, in the queues [pl] says (UThreadPool::dispatch). *)
Definition own_ok (own : option nat) (l : list nat) : bool := match own with None => true | Some r => memb r l end.
Definition tops (own : option nat) : list nop := match own with None => [] | Some r => [Run r] end.
Definition given (own : option nat) (pl : nat -> nat) (l : list nat) : list (nat * nat) :=
  map (fun c => (pl c, c)) (filter (fun c => match own with Some r => negb (Nat.eqb c r) | None => true end) l).

Inductive nlabel :=
| LTake (w q : nat) (f : nat -> bool) (back : bool)          (* worker w takes the tasks f of queue q: one, or a batch; from the back when it steals *)
| LGo (t : nat) (own : option nat) (pl : nat -> nat).
Definition waiting_in (s : nst) (q : nat) (f : nat -> bool) : list nat := map snd (filter (fun x => Nat.eqb (fst x) q && f (snd x)) (n_q s)).

(** [workers]: threads of the pool; [reach w q]: worker [w] takes tasks from queue [q] (own queue, queues in the steal range, common queue). *)
Definition nstep (p : plan) (workers : nat) (reach : nat -> nat -> bool) (s : nst) (lb : nlabel) : option nst :=
  match lb with
  | LTake w q f back =>
      (* processTask, processTasks: UThreadPrimary.h 91-109 *)
      match n_prog s w, waiting_in s q f with
      | [], (x :: r) as ts =>
          if Nat.leb 1 w && Nat.leb w workers && reach w q then
            Some (mkN (upd (n_prog s) w (map Run (if back then rev ts else ts))) (filter (fun x => negb (Nat.eqb (fst x) q && f (snd x))) (n_q s)) (n_begun s) (n_done s) (n_over s) (n_taken s ++ ts))
          else None
      | _, _ => None
      end
  | LGo t own pl =>
      match n_prog s t with
      | [] => None
      | Run e :: r =>
          match e_kind p e with
          | KNode => Some (mkN (upd (n_prog s) t (End e :: r)) (n_q s) (n_begun s ++ [e]) (n_done s) (n_over s) (n_taken s))
          | KSeq => Some (mkN (upd (n_prog s) t ((map Run (e_kids p e) ++ [End e]) ++ r)) (n_q s) (n_begun s ++ [e]) (n_done s) (n_over s) (n_taken s))
          | KPar =>
              if own_ok own (fronts p e) then
                Some (mkN (upd (n_prog s) t ((tops own ++ [Wait e; End e]) ++ r)) (n_q s ++ given own pl (fronts p e)) (n_begun s ++ [e]) (n_done s) (n_over s) (n_taken s))
              else None
          end
      | Wait g :: r =>
          if forallb (fun c => memb c (n_done s)) (e_kids p g) then Some (mkN (upd (n_prog s) t r) (n_q s) (n_begun s) (n_done s) (n_over s ++ [g]) (n_taken s)) else None
      | End e :: r =>
          if Nat.eqb e (e_root p) || negb (is_par p (e_par p e)) then Some (mkN (upd (n_prog s) t r) (n_q s) (n_begun s) (n_done s ++ [e]) (n_over s) (n_taken s))
          else let l := freed p (n_done s ++ [e]) (e_par p e) e in
               if own_ok own l then Some (mkN (upd (n_prog s) t (tops own ++ r)) (n_q s ++ given own pl l) (n_begun s) (n_done s ++ [e]) (n_over s) (n_taken s)) else None
      end
  end.
Fixpoint nrun (p : plan) (workers : nat) (reach : nat -> nat -> bool) (s : nst) (ls : list nlabel) : option nst :=
  match ls with [] => Some s | x :: r => match nstep p workers reach s x with Some s1 => nrun p workers reach s1 r | None => None end end.
