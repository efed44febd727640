(** C117: the data that a run of nested groups leaves do not depend on engines and schedules. *)
From Verif Require Import DataProofs GraphProps DynModel DynProps WholeModel StaticProofs DataProps.
From Verif Require Import ListUtil TreeModel TreeSpec TreeProofs TreeProps TreeDataProofs.
From Verif Require Export TreeDataSpec.
From Coq Require Import List Arith Lia ZArith Permutation.
Import ListNotations.
Local Open Scope nat_scope.

(** [s]: one run of the pipeline, at any moment; [t]: what its nodes do to memory meanwhile, in any interleaving. *)
(** C117: a run that succeeds leaves in memory what its nodes leave there one after another, in any order that the groups allow; and the nodes report what they report there. *)
Theorem C117_same : forall T body o m t x s, tree_ok T -> once T -> steady T -> tree_race_free T body -> respects T o -> reach T s -> n_starts (t_root T) (s_log s) <= 1 ->
  xall body (x_new m) t = Some x -> x_tr x = of_nodes T (s_log s) -> succeeded T (s_log s) ->
  (forall y, x_mem x y = after body o m y) /\ Permutation (finishes (x_tr x)) (results body o m).
Proof. intros T body o m t x s TO ON ST RF RO R L E Tr S. now apply (nest_same T TO ON ST body o m t x s). Qed.
Print Assumptions C117_same.
(** C117: also in a run that fails or is not over yet, a node that has ended reported what it reports there. *)
Theorem C117_reported : forall T body o m t x s, tree_ok T -> once T -> steady T -> tree_race_free T body -> respects T o -> reach T s -> n_starts (t_root T) (s_log s) <= 1 ->
  xall body (x_new m) t = Some x -> x_tr x = of_nodes T (s_log s) -> forall e v, In (GFinish e v) (s_log s) -> t_kind T e = TNode -> In (e, v) (results body o m).
Proof. intros T body o m t x s TO ON ST RF RO R L E Tr e v X K. destruct (nest_decided T TO ON ST body o m t x s RF RO R L E Tr) as [D _]. apply D. rewrite Tr. now apply in_nodes. Qed.
Print Assumptions C117_reported.
(** C117: a run that has ended succeeded exactly if the nodes succeed one after another. *)
Theorem C117_succeeds : forall T body o m t x s, tree_ok T -> once T -> steady T -> (forall e, ~ t_own T e) -> tree_race_free T body -> respects T o -> reach T s -> n_starts (t_root T) (s_log s) <= 1 ->
  xall body (x_new m) t = Some x -> x_tr x = of_nodes T (s_log s) -> ended_run T (s_log s) ->
  (succeeded T (s_log s) <-> forall e v, In (e, v) (results body o m) -> (0 <= code v)%Z).
Proof.
  intros T body o m t x s TO ON ST NO RF RO R L E Tr (v & F). split.
  - intros S e w H. destruct (nest_same T TO ON ST body o m t x s RF RO R L E Tr S) as [_ P]. apply (Permutation_in _ (Permutation_sym P)) in H. apply in_finishes in H. rewrite Tr in H. apply in_nodes in H as [H _]. now apply (succeeded_fine T TO ON ST s R L S e).
  - intros H. exists v. split; [exact F|]. destruct (Z_lt_le_dec (code v) 0) as [N|N]; [exfalso|exact N]. apply in_split in F as (L1 & L2 & El). destruct (C116_source T s (t_root T) v L1 L2 TO R El N) as (q & z & w & Sq & J & X & Cw & So).
    assert (K : t_kind T z = TNode) by (destruct So as [So|So]; [exact So|now apply NO in So]). assert (Y : In (GFinish z w) (s_log s)).
    { rewrite El. apply in_app_or in X as [X|[X|[]]]; [apply in_or_app; left; destruct Sq as (u & -> & _); apply in_or_app; right; now right|apply in_or_app; right; left; exact X]. }
    assert (Q := C117_reported T body o m t x s TO ON ST RF RO R L E Tr z w Y K). apply H in Q. lia.
Qed.
Print Assumptions C117_succeeds.
Lemma shape_inside T T' : same_shape T T' -> forall a x, inside T' a x -> inside T a x.
Proof. intros (_ & K & _) a x J. induction J as [|p x _ IH Kx]; [constructor|]. rewrite K in Kx. now apply (in_kid T a p). Qed.
Lemma shape_sym T T' : same_shape T T' -> same_shape T' T.
Proof. intros (A & B & C & D). split; [now symmetry|]. split; [intros e; now rewrite B|]. split; [intros e; now rewrite C|]. intros x y. now rewrite D. Qed.
Lemma shape_node T T' : same_shape T T' -> forall e, node T' e <-> node T e.
Proof.
  intros S e. destruct S as (A & B & C & D) eqn:ES. unfold node. rewrite <- !node_is, C, A. split; intros [J K]; (split; [|exact K]).
  - now apply (shape_inside T T' S).
  - apply (shape_inside T' T (shape_sym T T' S)). exact J.
Qed.
Lemma shape_nodes T T' lg : same_shape T T' -> of_nodes T' lg = of_nodes T lg.
Proof. intros (_ & _ & C & _). unfold of_nodes. apply filter_ext. intros x. apply C. Qed.
Lemma shape_race T T' body : same_shape T T' -> tree_race_free T body -> tree_race_free T' body.
Proof.
  intros S (R & W & H1 & H2). exists R, W. split; [intros e N; apply H1; now apply (shape_node T T' S)|]. intros e f Ne Nf N C. apply (shape_node T T' S) in Ne, Nf. destruct S as (_ & _ & _ & D). rewrite !D. now apply H2.
Qed.
Lemma shape_respects T T' o : same_shape T T' -> respects T o -> respects T' o.
Proof.
  intros S (A & B & C). split; [exact A|]. split; [intros e; rewrite B; symmetry; now apply shape_node|]. intros x y Nx Ny P. apply (shape_node T T' S) in Nx, Ny. destruct S as (_ & _ & _ & D). apply C; auto. now apply D.
Qed.
(** C117: two runs from the same data that have ended, with any engines in the pipeline and its regions and in any schedules: both succeeded or none did; and if they did, they left the same data and their nodes reported the same. *)
Theorem C117_deterministic : forall T T' body m t t' x x' s s', tree_ok T -> once T -> steady T -> (forall e, ~ t_own T e) -> tree_ok T' -> once T' -> steady T' -> (forall e, ~ t_own T' e) -> same_shape T T' -> tree_race_free T body ->
  reach T s -> n_starts (t_root T) (s_log s) <= 1 -> xall body (x_new m) t = Some x -> x_tr x = of_nodes T (s_log s) -> ended_run T (s_log s) ->
  reach T' s' -> n_starts (t_root T) (s_log s') <= 1 -> xall body (x_new m) t' = Some x' -> x_tr x' = of_nodes T (s_log s') -> ended_run T (s_log s') ->
  (succeeded T (s_log s) <-> succeeded T (s_log s')) /\ (succeeded T (s_log s) -> (forall y, x_mem x y = x_mem x' y) /\ Permutation (finishes (x_tr x)) (finishes (x_tr x'))).
Proof.
  intros T T' body m t t' x x' s s' TO ON ST NO TO' ON' ST' NO' SH RF R L E Tr En R' L' E' Tr' En'. pose proof (shape_race T T' body SH RF) as RF'. assert (Rt : t_root T' = t_root T) by apply SH.
  rewrite <- (shape_nodes T T' _ SH) in Tr'. assert (Es : succeeded T (s_log s') <-> succeeded T' (s_log s')) by (unfold succeeded; now rewrite Rt). rewrite Es.
  assert (En2 : ended_run T' (s_log s')) by (unfold ended_run in *; now rewrite Rt). rewrite <- Rt in L'.
  assert (H1 : succeeded T (s_log s) -> succeeded T' (s_log s') /\ (forall y, x_mem x y = x_mem x' y) /\ Permutation (finishes (x_tr x)) (finishes (x_tr x'))).
  { intros S. pose proof (own_order T TO ON ST s R L S) as RO. set (o := starts (of_nodes T (s_log s))) in *. pose proof (shape_respects T T' o SH RO) as RO'. assert (S' : succeeded T' (s_log s')).
    { apply (C117_succeeds T' body o m t' x' s' TO' ON' ST' NO' RF' RO' R' L' E' Tr' En2). now apply (C117_succeeds T body o m t x s TO ON ST NO RF RO R L E Tr En). }
    split; [exact S'|]. destruct (C117_same T body o m t x s TO ON ST RF RO R L E Tr S) as [M P], (C117_same T' body o m t' x' s' TO' ON' ST' RF' RO' R' L' E' Tr' S') as [M' P']. split; [intros y; now rewrite M, M'|]. apply Permutation_trans with (1 := P). now apply Permutation_sym. }
  split; [split; [now intros S; apply H1|]|now intros S; apply H1].
  intros S'. pose proof (own_order T' TO' ON' ST' s' R' L' S') as RO'. set (o := starts (of_nodes T' (s_log s'))) in *. pose proof (shape_respects T' T o (shape_sym T T' SH) RO') as RO.
  apply (C117_succeeds T body o m t x s TO ON ST NO RF RO R L E Tr En). now apply (C117_succeeds T' body o m t' x' s' TO' ON' ST' NO' RF' RO' R' L' E' Tr' En2).
Qed.
Print Assumptions C117_deterministic.
(** C117: what a pipeline does from its latest start of run() on, it can also do in its first run: runs leave nothing behind (but data) that matters to later ones. *)
Theorem C117_fresh : forall T s L q, tree_ok T -> reach T s -> s_log s = L ++ GStart (t_root T) :: q -> ~ In (GStart (t_root T)) q -> exists s', reach T s' /\ s_log s' = GStart (t_root T) :: q.
Proof. intros T s L q TO R. now apply fresh_run. Qed.
Print Assumptions C117_fresh.
(** C117: run after run. *)
Theorem C117_rounds : forall T body o m n m', tree_ok T -> once T -> steady T -> tree_race_free T body -> respects T o -> tree_runs T body m n m' -> forall y, m' y = times n (after body o) m y.
Proof.
  intros T body o m n m' TO ON ST RF RO H. induction H as [m|m t x s n m' R L E Tr S H IH]; intros y; [reflexivity|]. destruct (C117_same T body o m t x s TO ON ST RF RO R L E Tr S) as [M _]. rewrite IH. cbn [times]. clear -M. revert M. generalize (x_mem x) (after body o m). induction n as [|n IH]; intros a b M; cbn [times]; [apply M|]. apply IH. now apply after_ext.
Qed.
Print Assumptions C117_rounds.

(** * A concrete case *)
(** As ex_t, but 11 executes 5 and then 6 (which is 5 again: the loop). 0 and 1 write; 2 reads what 1 wrote; 5 and 6 read and write what 0 and 2 wrote. *)
Definition ex_n : tree := mkTree 20
  (fun e => match e with 20 => [10; 11] | 10 => [0; 1; 2] | 11 => [5; 6] | _ => [] end)
  (fun e => match e with 10 | 11 => 20 | 0 | 1 | 2 => 10 | _ => 11 end)
  (fun e => match e with 20 => TEng top_g ETopo | 10 => TEng strag_g (EDynamic (fun _ => (-1)%Z)) | 11 => TSeq (fun l => l = [5; 6]) | _ => TNode end)
  (fun _ => False).
Lemma n_kids g c : In c (t_kids ex_n g) -> (g = 20 /\ (c = 10 \/ c = 11)) \/ (g = 10 /\ (c = 0 \/ c = 1 \/ c = 2)) \/ (g = 11 /\ (c = 5 \/ c = 6)).
Proof. intros H. do 21 (destruct g as [|g]; [cbn in H; intuition|]). contradiction. Qed.
Lemma n_kinds e : e = 20 \/ e = 10 \/ e = 11 \/ t_kind ex_n e = TNode.
Proof. do 21 (destruct e as [|e]; [auto|]). auto. Qed.
Lemma n_ok : tree_ok ex_n.
Proof.
  split.
  - intros g c H. apply n_kids in H. intuition subst; try reflexivity; discriminate.
  - exists (fun e => match e with 20 => 0 | 10 | 11 => 1 | _ => 2 end). intros g c H. apply n_kids in H. intuition subst; cbn; lia.
  - intros e. destruct (Nat.eq_dec e 20) as [->|N1]; [|destruct (Nat.eq_dec e 10) as [->|N2]; [|destruct (Nat.eq_dec e 11) as [->|N3]]].
    + split; [exact top_wf|]. split; [apply acyclic_by_check; [exact top_wf|vm_compute; reflexivity]|reflexivity].
    + split; [exact strag_wf|]. split; [apply acyclic_by_check; [exact strag_wf|vm_compute; reflexivity]|reflexivity].
    + intros l ->. intros x [<-|[<-|[]]]; cbn; auto.
    + do 21 (destruct e as [|e]; [first [reflexivity|lia]|]). reflexivity.
  - split; [discriminate|intros []].
Qed.
Lemma n_once : once ex_n.
Proof. intros e may H l Hl. destruct (n_kinds e) as [->|[->|[->|K]]]; try discriminate; [|congruence]. injection H as <-. subst l. repeat constructor; cbn; intuition discriminate. Qed.
Lemma n_steady : steady ex_n.
Proof. intros e may H l Hl. destruct (n_kinds e) as [->|[->|[->|K]]]; [destruct H; discriminate|destruct H; discriminate| |rewrite K in H; destruct H; discriminate]. destruct H as [H|H]; [|discriminate]. injection H as <-. subst l. apply incl_refl. Qed.
Definition n_body (e : nat) : prog :=
  match e with
  | 0 => Write 0 5 (DataModel.Ret st_default)
  | 1 => Write 1 3 (DataModel.Ret st_default)
  | 2 => Read 1 (fun a => Write 2 (a * 7)%Z (DataModel.Ret st_default))
  | 5 | 6 => Read 0 (fun a => Read 2 (fun b => Write 2 (a + b)%Z (DataModel.Ret st_default)))
  | _ => DataModel.Ret st_default
  end.
Definition n_R (e x : nat) : Prop := match e with 2 => x = 1 | 5 | 6 => x = 0 \/ x = 2 | _ => False end.
Definition n_W (e x : nat) : Prop := match e with 0 => x = 0 | 1 => x = 1 | 2 | 5 | 6 => x = 2 | _ => False end.
Lemma n_node e : node ex_n e -> e = 0 \/ e = 1 \/ e = 2 \/ e = 5 \/ e = 6.
Proof. intros [J K]. inversion J as [|p x _ Kx]; subst; [discriminate|]. apply n_kids in Kx. intuition subst; try discriminate; auto. Qed.
Lemma n_in g c : In c (t_kids ex_n g) -> inside ex_n g c.
Proof. intros H. apply (in_kid ex_n g g); [constructor|exact H]. Qed.
Lemma n_up e f : In e (t_kids ex_n 10) -> In f (t_kids ex_n 11) -> ordered_in ex_n e f.
Proof. intros He Hf. exists 20, 10, 11. split; [now left|]. split; [right; now left|]. split; [constructor; vm_compute; auto|]. split; now apply n_in. Qed.
Lemma n_12 : ordered_in ex_n 1 2.
Proof. exists 10, 1, 2. split; [cbn; auto|]. split; [cbn; auto|]. split; [constructor; vm_compute; auto|]. split; constructor. Qed.
Lemma n_56 : ordered_in ex_n 5 6.
Proof.
  exists 11, 5, 6. split; [cbn; auto|]. split; [cbn; auto|]. split; [|split; constructor]. intros l l1 l2 -> E. destruct l1 as [|a [|b [|c l1]]]; cbn in E; try discriminate; injection E; intros; subst; cbn; intuition discriminate.
Qed.
Lemma n_free : tree_race_free ex_n n_body.
Proof.
  exists n_R, n_W. split.
  - intros e N. destruct (n_node e N) as [->|[->|[->|[->| ->]]]]; cbn; repeat (split; auto).
  - intros e f Ne Nf N C. destruct (n_node e Ne) as [->|[->|[->|[->| ->]]]]; destruct (n_node f Nf) as [->|[->|[->|[->| ->]]]]; try congruence;
      first [left; apply n_up; cbn; tauto|right; apply n_up; cbn; tauto|left; exact n_12|right; exact n_12|left; exact n_56|right; exact n_56|exfalso; destruct C as (x & C); cbn in C; lia].
Qed.
Definition n_log : list gevent :=
  [GStart 20; GStart 10; GStart 0; GStart 1; fin 1; GStart 2; fin 2; fin 0; fin 10; GStart 11; GStart 5; fin 5; GStart 6; fin 6; fin 11; fin 20].
Lemma n_run : exists s, reach ex_n s /\ s_log s = n_log.
Proof.
  pose proof (re_new ex_n) as R. apply go_run in R; [|reflexivity].
  st 10 ltac:(by_top fine st_default). st 0 ltac:(by_strag (tl ok_ls) 6). st 1 ltac:(by_strag (tl ok_ls) 8). en 1 st_default ltac:(exact I) ltac:(by_strag (tl ok_ls) 9).
  st 2 ltac:(by_strag (tl ok_ls) 12). en 2 st_default ltac:(exact I) ltac:(by_strag (tl ok_ls) 13). en 0 st_default ltac:(exact I) ltac:(by_strag (tl ok_ls) 22). rt 10 st_default ltac:(by_strag (tl ok_ls) 28).
  en 10 st_default result ltac:(by_top fine st_default). st 11 ltac:(by_top fine st_default).
  st 5 ltac:(exists [5; 6]; split; [reflexivity|]; apply (sq_within [5; 6] [] 5 [6]); [reflexivity|intros ? []]).
  en 5 st_default ltac:(exact I) ltac:(exists [5; 6]; split; [reflexivity|]; apply (sq_between [5; 6] [(5, st_default)] [6]); [reflexivity|intros ? [<-|[]]; vm_compute; discriminate]).
  st 6 ltac:(exists [5; 6]; split; [reflexivity|]; apply (sq_within [5; 6] [(5, st_default)] 6 []); [reflexivity|intros ? [<-|[]]; vm_compute; discriminate]).
  en 6 st_default ltac:(exact I) ltac:(exists [5; 6]; split; [reflexivity|]; apply (sq_between [5; 6] [(5, st_default); (6, st_default)] []); [reflexivity|intros ? [<-|[<-|[]]]; vm_compute; discriminate]).
  rt 11 st_default ltac:(exists [5; 6]; split; [reflexivity|]; apply (sq_end [5; 6] [(5, st_default); (6, st_default)]); [reflexivity|intros ? [<-|[<-|[]]]; vm_compute; discriminate|vm_compute; discriminate]).
  en 11 st_default result ltac:(by_top fine st_default). rt 20 st_default ltac:(by_top fine st_default).
  apply go_over with (r := st_default) in R; [|vm_compute; lia|result]. eexists. split; [exact R|]. vm_compute. reflexivity.
Qed.
(** The writes of 0 come while 1 and 2 are at work. *)
Definition n_t : list dev := [Begin 0; Begin 1; Act 1; End 1; Begin 2; Act 2; Act 0; Act 2; End 2; End 0; Begin 5; Act 5; Act 5; Act 5; End 5; Begin 6; Act 6; Act 6; Act 6; End 6].
Example C117_nonvacuous : exists x s, tree_ok ex_n /\ once ex_n /\ steady ex_n /\ (forall e, ~ t_own ex_n e) /\ tree_race_free ex_n n_body /\ reach ex_n s /\ n_starts (t_root ex_n) (s_log s) <= 1 /\
  xall n_body (x_new (fun _ => 0%Z)) n_t = Some x /\ x_tr x = of_nodes ex_n (s_log s) /\ succeeded ex_n (s_log s) /\ ended_run ex_n (s_log s) /\ x_mem x 2 = 31%Z /\ respects ex_n (starts (of_nodes ex_n (s_log s))) /\ tree_runs ex_n n_body (fun _ => 0%Z) 1 (x_mem x).
Proof.
  destruct n_run as (s & R & E). assert (X : exists x, xall n_body (x_new (fun _ => 0%Z)) n_t = Some x /\ x_tr x = of_nodes ex_n n_log /\ x_mem x 2 = 31%Z) by (eexists; split; [vm_compute; reflexivity|split; vm_compute; reflexivity]). destruct X as (x & Ex & Tx & Mx).
  assert (L : n_starts (t_root ex_n) (s_log s) <= 1) by (rewrite E; vm_compute; lia). assert (S : succeeded ex_n (s_log s)) by (exists st_default; rewrite E; split; [vm_compute; auto 20|vm_compute; discriminate]). rewrite <- E in Tx.
  exists x, s. split; [exact n_ok|]. split; [exact n_once|]. split; [exact n_steady|]. split; [intros e []|]. split; [exact n_free|]. split; [exact R|]. split; [exact L|]. split; [exact Ex|]. split; [exact Tx|]. split; [exact S|]. split; [destruct S as (v & F & _); now exists v|]. split; [exact Mx|]. split.
  - now apply (own_order ex_n n_ok n_once n_steady).
  - now apply (tr_S ex_n n_body _ n_t x s 0 _ R L Ex Tx S), tr_0.
Qed.
(** The same tree with the topological engine in the region. *)
Definition ex_n2 : tree := mkTree 20 (t_kids ex_n) (t_par ex_n) (fun e => match e with 10 => TEng strag_g ETopo | _ => t_kind ex_n e end) (fun _ => False).
Example C117_deterministic_nonvacuous : same_shape ex_n ex_n2 /\ t_kind ex_n2 10 <> t_kind ex_n 10 /\ tree_ok ex_n2 /\ once ex_n2 /\ steady ex_n2.
Proof.
  assert (P : forall r a b, precedes ex_n2 r a b <-> precedes ex_n r a b). { intros r a b. unfold precedes. destruct (Nat.eq_dec r 10) as [->|N]; [reflexivity|]. assert (E : t_kind ex_n2 r = t_kind ex_n r) by (cbn; do 11 (destruct r as [|r]; [first [reflexivity|lia]|]); reflexivity). rewrite E. reflexivity. }
  assert (J : forall a x, inside ex_n2 a x <-> inside ex_n a x). { intros a x. split; intros H; induction H as [|p x _ IH K]; try constructor; now apply (in_kid _ a p). }
  assert (KE : forall r, r <> 10 -> t_kind ex_n2 r = t_kind ex_n r) by (intros r N; cbn; do 11 (destruct r as [|r]; [first [reflexivity|lia]|]); reflexivity).
  split; [|split; [discriminate|split; [|split]]].
  - split; [reflexivity|]. split; [reflexivity|]. split; [intros e; unfold is_node; destruct (Nat.eq_dec e 10) as [->|N]; [reflexivity|now rewrite KE]|]. intros x y. split; intros (r & a & b & A & B & C & D & E); exists r, a, b; (split; [exact A|]; split; [exact B|]; split; [now apply P|]; split; now apply J).
  - destruct n_ok as [A B C D]. split; [exact A|exact B| |split; [discriminate|intros []]]. intros e. destruct (Nat.eq_dec e 10) as [->|N]; [exact (C 10)|]. rewrite (KE e N). apply C.
  - intros e may H. destruct (Nat.eq_dec e 10) as [->|N]; [discriminate|]. rewrite (KE e N) in H. now apply (n_once e may).
  - intros e may H. destruct (Nat.eq_dec e 10) as [->|N]; [destruct H; discriminate|]. rewrite (KE e N) in H. now apply (n_steady e may).
Qed.
