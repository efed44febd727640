(** C90: a refused registration changes nothing. *)
From Verif Require Import RegProofs.
Local Open Scope nat_scope.
Local Open Scope list_scope.

(** A call that is refused because the pipeline or the element is initialised, the element is registered already, of another kind or inside a group, because of a
    null dependency, or because of a foreign dependency when it names no other ([clean]), leaves the state as it was.
    Missing for the whole of C90: calls that also name dependencies the element may have, and exceptions because of a timeout, see the refutations. *)
Theorem C90_unchanged_partial : forall s c, null_first c -> clean s c -> snd (register s c) <> ROk -> fst (register s c) = s.
Proof. exact clean_same. Qed.

(** So a whole program builds the same pipeline as its accepted calls alone, which are all accepted then, too. *)
Theorem C90_program_partial : forall s l, clean_program s l ->
  fst (register_all s l) = fst (register_all s (accepted_calls s l)) /\ Forall (fun o => o = ROk) (snd (register_all s (accepted_calls s l))).
Proof. intros s l H. split; [apply clean_program_same, H|apply accepted_ok, H]. Qed.

(** Whatever the reason: what is registered, all names, loops, timeouts, parents, and the dependencies of all other elements stay; another element can only gain the
    refused one as a successor. *)
Theorem C90_others_partial : forall s c s' o, register s c = (s', o) -> o <> ROk ->
  b_reg s' = b_reg s /\ b_repo s' = b_repo s /\ b_loop s' = b_loop s /\ b_name s' = b_name s /\ b_timeout s' = b_timeout s /\ b_mgr s' = b_mgr s /\ b_init s' = b_init s /\
  (forall e, e <> c_this c -> e_dep (b_g s' e) = e_dep (b_g s e) /\ e_left (b_g s' e) = e_left (b_g s e)) /\
  (forall e, e_belong (b_g s' e) = e_belong (b_g s e) /\ e_init (b_g s' e) = e_init (b_g s e)) /\
  (forall e, e_succ (b_g s' e) = e_succ (b_g s e) \/ e <> c_this c /\ ~ In (c_this c) (e_succ (b_g s e)) /\ e_succ (b_g s' e) = e_succ (b_g s e) ++ [c_this c]).
Proof.
  intros s c s' o R NO. pose proof (refused_frame s c) as F. rewrite R in F. cbn [fst snd] in F. destruct (F NO) as (A & B & C & D & E & G & H & [F1 F2 F3]).
  do 7 (split; [assumption|]). split; [|split].
  - intros e N. split; [apply F1, N|apply F3, N].
  - intros e. destruct (F3 e) as (X & Y & _). auto.
  - exact F2.
Qed.

(** False in the code, for every call that names dependencies it may have before a foreign one: the call is refused, but these dependencies are entered, and the
    element, which is not part of the pipeline, is a successor of elements that are. *)
Theorem C90_refused_refuted : forall s c pre b post, b_init s = false -> c_class c = CNew -> e_init (b_g s (c_this c)) = false -> c_deps c = pre ++ Some b :: post ->
  (forall d, In d pre -> exists x, d = Some x /\ e_belong (b_g s x) = e_belong (b_g s (c_this c))) -> e_belong (b_g s b) <> e_belong (b_g s (c_this c)) ->
  snd (register s c) = RRefused /\ b_reg (fst (register s c)) = b_reg s /\
  forall d, In (Some d) pre -> d <> c_this c ->
    In d (e_dep (b_g (fst (register s c)) (c_this c))) /\ In (c_this c) (e_succ (b_g (fst (register s c)) d)).
Proof.
  intros s c pre b post I K E D P B. assert (R : reaches s c) by (unfold reaches; rewrite K; auto).
  destruct (refused_prefix s c pre b post R D P B) as [X Y]. split; [exact X|]. split; [|exact Y].
  apply refused_frame. rewrite X. discriminate.
Qed.

(** Witness: 0 is a node, 3 a cluster with the child 2, 1 is a node refused because it names 2 next to 0. *)
Definition fresh (p : option nat) : elem := mkElem p [] [] 0%Z false false.
Definition g0 : gst := fun e => fresh (match e with 2 => Some 3 | _ => None end).
Definition b0 : bst := mkB g0 [] [] (fun _ => 1) (fun _ => 0) (fun e => Nat.eqb e 5) (fun _ => false) false.
Definition good : rcall := mkC 0 CNew [] 7 1.
Definition cluster : rcall := mkC 3 (CGroup true) [] 8 1.
Definition bad : rcall := mkC 1 CNew [Some 0; Some 2] 9 1.
Definition after_bad : bst := fst (register_all b0 [good; cluster; bad]).
Example ex_outcomes : snd (register_all b0 [good; cluster; bad; mkC 4 CNew [None; Some 0] 1 1; mkC 3 (CGroup true) [] 1 1; mkC 4 CNew [Some 0] 1 1])
  = [ROk; ROk; RRefused; RRefused; RRefused; ROk].
Proof. vm_compute. reflexivity. Qed.
Example ex_clean : clean_program b0 [good; mkC 1 CNew [Some 2] 9 1; cluster; mkC 4 CNew [None; Some 0] 1 1; mkC 4 CNew [Some 0; Some 3] 1 1] /\
  b_reg (fst (register_all b0 [good; mkC 1 CNew [Some 2] 9 1; cluster; mkC 4 CNew [None; Some 0] 1 1; mkC 4 CNew [Some 0; Some 3] 1 1])) = [0; 3; 4].
Proof.
  assert (NF : forall c, (c_deps c = [] \/ exists l, c_deps c = None :: map Some l) \/ (exists l, c_deps c = map Some l) -> null_first c).
  { intros c H pre post E. destruct pre as [|p pre]; [reflexivity|]. exfalso. cbn [app] in E.
    assert (M : forall l, In None (map (@Some nat) l) -> False) by (intros l I; apply in_map_iff in I; destruct I as (x & X & _); discriminate X).
    destruct H as [[H|[l H]]|[l H]]; rewrite H in E.
    - discriminate.
    - injection E as _ E. apply (M l). rewrite E. apply in_or_app. cbn. tauto.
    - apply (M l). rewrite E. right. apply in_or_app. cbn. tauto. }
  split; [|vm_compute; reflexivity]. cbn [clean_program].
  split; [apply NF; left; left; reflexivity|]. split; [vm_compute; congruence|].
  split; [apply NF; right; exists [2]; reflexivity|]. split.
  { intros _. right. split; [|reflexivity]. intros d [H|[]]. injection H as <-. intros [_ H]. vm_compute in H. discriminate H. }
  split; [apply NF; left; left; reflexivity|]. split; [vm_compute; congruence|].
  split; [apply NF; left; right; exists [0]; reflexivity|]. split; [intros _; left; left; reflexivity|].
  split; [apply NF; right; exists [0; 3]; reflexivity|]. split; [vm_compute; congruence|exact I].
Qed.

(** What this does to a run: in the pipeline above (whose two registrations were accepted) run returns OK although the registered node 0 has not started,
    and on another schedule the refused element 1 is executed. *)
Definition bad_cfg : dcfg := mkCfg (graph_of (b_g after_bad) (b_reg after_bad)) (fun _ => (-1)%Z) 2 0.
Definition M (n : nat) : list dlabel := repeat (LMain st_default) n.
Theorem C90_run_refuted :
  c_g bad_cfg = graph_of (b_g after_bad) [0; 3] /\
  (exists ls s, drun bad_cfg (d_init bad_cfg) ls = Some s /\ d_out s = Some st_default /\ ~ In (GStart 0) (sh_tr (d_sh s)) /\ d_main s = MIdle) /\
  (exists ls s, drun bad_cfg (d_init bad_cfg) ls = Some s /\ In (GFinish 1 st_default) (sh_tr (d_sh s)) /\ ~ In 1 (b_reg after_bad)).
Proof.
  split; [reflexivity|]. split.
  - exists (LRun :: M 15). eexists. split; [vm_compute; reflexivity|]. split; [reflexivity|]. split; [|reflexivity].
    vm_compute. intros [H|[H|[]]]; discriminate H.
  - exists (LRun :: M 4 ++ [LPick 0] ++ repeat (LWork 0 st_default) 6). eexists. split; [vm_compute; reflexivity|]. split; [vm_compute; auto 10|].
    vm_compute. intros [H|[H|[]]]; discriminate H.
Qed.

(** An existing element that was refused and is registered again with other dependencies keeps the old ones. *)
Theorem C90_retry_refuted : exists s c1 c2, snd (register s c1) = RRefused /\ snd (register (fst (register s c1)) c2) = ROk /\ c_this c1 = c_this c2 /\ c_deps c2 = [] /\
  e_dep (b_g (fst (register (fst (register s c1)) c2)) (c_this c2)) <> [] /\ e_dep (b_g (fst (register s c2)) (c_this c2)) = [].
Proof.
  exists (fst (register b0 good)), (mkC 4 (CDirect true) [Some 0; Some 2] 1 1), (mkC 4 (CDirect true) [] 1 1).
  do 4 (split; [vm_compute; reflexivity|]). split; [vm_compute; discriminate|vm_compute; reflexivity].
Qed.

(** Registration of an element with a timeout and a loop throws after its dependencies have been entered. *)
Theorem C90_thrown_refuted : exists s c d, snd (register s c) = RThrown /\ In (c_this c) (e_succ (b_g (fst (register s c)) d)) /\ ~ In (c_this c) (b_reg (fst (register s c))).
Proof.
  exists (fst (register b0 good)), (mkC 5 (CDirect true) [Some 0] 1 2), 0. split; [vm_compute; reflexivity|]. split; [vm_compute; auto|].
  vm_compute. intros [H|[]]; discriminate H.
Qed.

Print Assumptions C90_program_partial.
Print Assumptions C90_others_partial.
Print Assumptions C90_run_refuted.
