(** GSingleton<T> (src/GraphCtrl/GraphElement/GAdapter/GSingleton/GSingleton.inl 16-138): elements of any number of pipelines that share one object of type T, and the calls of their pipelines that reach it:
    registration (GPipeline/GPipeline.inl 18-53, GPipeline.cpp 379-401), init, run, destroy and deletion (GPipeline.cpp 26-99), and the loops of GElementManager (GElementManager.cpp 23-60).
    One type T; a singleton of another type is an ordinary element here.
    Simplified: all calls come from one thread (the second part has the concurrent inits); every element has loop 1 and a run executes all elements without error; the order of the elements in a manager
    (the set's order, by level and address) is given by the position at which they are registered; aspects, events, daemons and groups are left out. *)
From Verif Require Export ListUtil.
From Coq Require Export Lia Bool.
Local Open Scope nat_scope.
Local Open Scope list_scope.

Inductive item := Plain | Shared.                                  (* another element; a GSingleton<T> *)
Record pst := mkP { p_items : list item; p_init : bool; p_dead : bool }.
Record gst := mkG { flag : bool;                                   (* s_is_init_, 20 *)
                    owner : option nat;                            (* the pipeline whose managers the shared object holds *)
                    title : nat;                                   (* name_ of the shared object *)
                    pipes : nat -> pst }.
Definition start : gst := mkG false None 0 (fun _ => mkP [] false false).

(** Calls on the shared object. [ERun p q ok]: run, as part of a run of pipeline [p], with the managers of pipeline [q]; [ok]: that pipeline still exists. *)
Inductive ev := EInit (ok : bool) | ERun (p : nat) (q : option nat) (ok : bool) | EDestroy (ok : bool).
Inductive op := OReg (p at_ name : nat) | OPlain (p at_ : nat) | OInit (p : nat) (res : nat -> bool) | ORun (p : nat) | ODestroy (p : nat) (res : nat -> bool) | ODelete (p : nat).

Definition insert_at {A} (k : nat) (x : A) (l : list A) : list A := firstn k l ++ x :: skipn k l.
Definition set_pipe (g : gst) (p : nat) (x : pst) : gst := mkG (flag g) (owner g) (title g) (upd (pipes g) p x).

(** GSingleton::init, GSingleton.inl 30-46. [ok]: what T's init returns, if it is called. *)
Definition single_init (g : gst) (ok : bool) : gst * list ev * bool :=
  if flag g then (g, [], true) else (mkG (if ok then true else flag g) (owner g) (title g) (pipes g), [EInit ok], ok).
(** GSingleton::destroy, GSingleton.inl 59-73. *)
Definition single_destroy (g : gst) (ok : bool) : gst * list ev * bool :=
  if negb (flag g) then (g, [], true) else (mkG (if ok then false else flag g) (owner g) (title g) (pipes g), [EDestroy ok], ok).
(** The loops of GElementManager::init (GElementManager.cpp 33-37) and destroy (46-50); [f] is applied to the shared elements; [res k] is the result of the k-th element. *)
Fixpoint each (f : gst -> bool -> gst * list ev * bool) (res : nat -> bool) (k : nat) (l : list item) (g : gst) : gst * list ev * bool :=
  match l with
  | [] => (g, [], true)
  | Plain :: l => if res k then each f res (S k) l g else (g, [], false)
  | Shared :: l => let '(g1, e1, b1) := f g (res k) in if b1 then let '(g2, e2, b2) := each f res (S k) l g1 in (g2, e1 ++ e2, b2) else (g1, e1, false)
  end.
(** GSingleton::run, GSingleton.inl 49-56, for every shared element of the pipeline. *)
Definition run_events (g : gst) (p : nat) : list ev :=
  flat_map (fun i => match i with Shared => [ERun p (owner g) (match owner g with Some q => negb (p_dead (pipes g q)) | None => false end)] | Plain => [] end) (p_items (pipes g p)).

(** One call; the boolean is "status OK". A call on a deleted pipeline is not made. *)
Definition step (g : gst) (o : op) : gst * list ev * bool :=
  match o with
  | OReg p k name =>                                               (* registerGElement<GSingleton<T>>: addElementInfo GSingleton.inl 76-92, addManagers 95-107, add *)
      if p_dead (pipes g p) || p_init (pipes g p) then (g, [], false)
      else (mkG (flag g) (Some p) name (upd (pipes g) p (mkP (insert_at k Shared (p_items (pipes g p))) false false)), [], true)
  | OPlain p k =>
      if p_dead (pipes g p) || p_init (pipes g p) then (g, [], false)
      else (set_pipe g p (mkP (insert_at k Plain (p_items (pipes g p))) false false), [], true)
  | OInit p res =>
      if p_dead (pipes g p) || p_init (pipes g p) then (g, [], false)
      else let '(g1, es, b) := each single_init res 0 (p_items (pipes g p)) g in
           (if b then set_pipe g1 p (mkP (p_items (pipes g p)) true false) else g1, es, b)
  | ORun p => if p_dead (pipes g p) || negb (p_init (pipes g p)) then (g, [], false) else (g, run_events g p, true)
  | ODestroy p res =>
      if p_dead (pipes g p) || negb (p_init (pipes g p)) then (g, [], false)
      else let '(g1, es, b) := each single_destroy res 0 (p_items (pipes g p)) g in
           (if b then set_pipe g1 p (mkP (p_items (pipes g p)) false false) else g1, es, b)
  | ODelete p => (set_pipe g p (mkP (p_items (pipes g p)) (p_init (pipes g p)) true), [], true)     (* ~GPipeline, GPipeline.cpp 26-33: the managers are deleted, the shared object is not told *)
  end.
Fixpoint play (g : gst) (h : list op) : gst * list ev :=
  match h with
  | [] => (g, [])
  | o :: h => let '(g1, e1, _) := step g o in let (g2, e2) := play g1 h in (g2, e1 ++ e2)
  end.
Definition after (h : list op) : gst := fst (play start h).
Definition calls (h : list op) : list ev := snd (play start h).

(** * Two pipelines initialised at the same time: the reads and writes of s_is_init_ in GSingleton::init, GSingleton.inl 34-43, by any number of threads; T's init succeeds. *)
Inductive ipc := IStart | ICall | IStore | IDone.
Record ist := mkI { i_flag : bool; i_pc : nat -> ipc; i_calls : nat }.
Definition istart : ist := mkI false (fun _ => IStart) 0.
Definition istep (s : ist) (t : nat) : ist :=
  match i_pc s t with
  | IStart => mkI (i_flag s) (upd (i_pc s) t (if i_flag s then IDone else ICall)) (i_calls s)     (* GSingleton.inl 34-36 *)
  | ICall => mkI (i_flag s) (upd (i_pc s) t IStore) (S (i_calls s))                               (* GSingleton.inl 39-40 *)
  | IStore => mkI true (upd (i_pc s) t IDone) (i_calls s)                                         (* GSingleton.inl 41-43 *)
  | IDone => s
  end.

(** * USingleton (src/UtilsCtrl/Singleton/USingleton.h 41-48, 73-81), type LAZY: the threads that call get(). *)
Inductive upc := UCheck | ULock | UCheck2 | UCreate | UUnlock | URead | UDone (p : option nat).
Record ust := mkU { u_handle : option nat; u_lock : option nat; u_pc : nat -> upc; u_made : nat }.
Definition ustart : ust := mkU None None (fun _ => UCheck) 0.
Definition is_none {A} (o : option A) : bool := match o with None => true | Some _ => false end.
Definition ustep (s : ust) (t : nat) : option ust :=
  match u_pc s t with
  | UCheck => Some (mkU (u_handle s) (u_lock s) (upd (u_pc s) t (if is_none (u_handle s) then ULock else URead)) (u_made s))          (* 74, without the lock *)
  | ULock => if is_none (u_lock s) then Some (mkU (u_handle s) (Some t) (upd (u_pc s) t UCheck2) (u_made s)) else None                (* 75 *)
  | UCheck2 => Some (mkU (u_handle s) (u_lock s) (upd (u_pc s) t (if is_none (u_handle s) then UCreate else UUnlock)) (u_made s))     (* 76 *)
  | UCreate => Some (mkU (Some (u_made s)) (u_lock s) (upd (u_pc s) t UUnlock) (S (u_made s)))                                        (* 77 *)
  | UUnlock => Some (mkU (u_handle s) None (upd (u_pc s) t URead) (u_made s))                                                         (* 79 *)
  | URead => Some (mkU (u_handle s) (u_lock s) (upd (u_pc s) t (UDone (u_handle s))) (u_made s))                                      (* USingleton.h 46-47 *)
  | UDone _ => None
  end.
Fixpoint uplay (s : ust) (l : list nat) : option ust :=
  match l with [] => Some s | t :: l => match ustep s t with Some s' => uplay s' l | None => None end end.
