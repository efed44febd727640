(** Proofs about parallelRunAll on the pool: the calls keep the protocol of executeWithTid, the two models agree about the tasks *)
From Verif Require Import PEngSpec DynProofs PoolProofs BindProofs EngPoolProofs.
From Coq Require Import Lia Permutation.
Local Open Scope nat_scope.
Local Open Scope list_scope.

(** * The calls of one run *)
(** The protocol of executeWithTid: a batch is opened by the first call for a thread, continued for the same thread, and closed; in a batch nothing else is called *)
Fixpoint proto (me : nat) (o : option nat) (l : list plabel) : Prop :=
  match l with
  | [] => o = None
  | LSubmit _ _ _ _ :: r => o = None /\ proto me None r
  | LTid p _ tid en lk :: r => exists i, p = me /\ tid = Z.of_nat i /\
      if lk then en = true /\ o = None /\ proto me (Some i) r else o = Some i /\ proto me (if en then None else Some i) r
  | _ => False
  end.
Lemma row_proto p i rest : proto p None rest -> forall row, row <> [] -> proto p (Some i) (row_calls p i false row ++ rest).
Proof.
  intros R. induction row as [|e [|x r] IH]; intros N; [congruence| |].
  - cbn. exists i. split; [reflexivity|]. split; [reflexivity|]. now split.
  - change (row_calls p i false (e :: x :: r)) with (LTid p e (Z.of_nat i) false false :: row_calls p i false (x :: r)). cbn [app proto]. exists i. split; [reflexivity|]. split; [reflexivity|]. split; [reflexivity|]. apply IH. discriminate.
Qed.
Lemma calls_proto b p : forall rows i, proto p None (matrix_calls b p i rows).
Proof.
  induction rows as [|[|e [|x r]] rows IH]; intros i; cbn [matrix_calls].
  - reflexivity.
  - cbn [row_calls app]. apply IH.
  - cbn [proto]. split; [reflexivity|apply IH].
  - change (row_calls p i true (e :: x :: r)) with (LTid p e (Z.of_nat i) true true :: row_calls p i false (x :: r)). cbn [app proto]. exists i. split; [reflexivity|]. split; [reflexivity|]. split; [reflexivity|]. split; [reflexivity|].
    apply row_proto; [apply IH|discriminate].
Qed.
Lemma row_given p i : forall row f, map given1 (row_calls p i f row) = map (fun e => [e]) row.
Proof. induction row as [|e [|x r] IH]; intros f; [reflexivity|reflexivity|]. change (row_calls p i f (e :: x :: r)) with (LTid p e (Z.of_nat i) f f :: row_calls p i false (x :: r)). cbn [map]. now rewrite IH. Qed.
Lemma calls_given b p : forall rows i, map given1 (matrix_calls b p i rows) = map (fun e => [e]) (concat rows).
Proof.
  induction rows as [|[|e [|x r]] rows IH]; intros i; cbn [matrix_calls concat].
  - reflexivity.
  - apply IH.
  - cbn [map app given1]. now rewrite IH.
  - rewrite map_app, row_given, IH, <- map_app. reflexivity.
Qed.
Lemma calls_len b p i rows : length (matrix_calls b p i rows) = length (concat rows).
Proof. rewrite <- (map_length given1), calls_given, map_length. reflexivity. Qed.
Lemma row_from p i q : forall row f, In q (row_calls p i f row) -> exists e en lk, In e row /\ q = LTid p e (Z.of_nat i) en lk.
Proof.
  induction row as [|e [|x r] IH]; intros f H; [destruct H| |].
  - destruct H as [<-|[]]. exists e, true, f. split; [now left|reflexivity].
  - change (row_calls p i f (e :: x :: r)) with (LTid p e (Z.of_nat i) f f :: row_calls p i false (x :: r)) in H. destruct H as [<-|H]; [exists e, f, f; split; [now left|reflexivity]|].
    destruct (IH false H) as (y & en & lk & Y & Q). exists y, en, lk. split; [now right|exact Q].
Qed.
(** Where a call comes from *)
Lemma calls_from b p q : forall rows i, In q (matrix_calls b p i rows) ->
  exists j row e, nth_error rows j = Some row /\ In e row /\ ((2 <= length row /\ exists en lk, q = LTid p e (Z.of_nat (i + j)) en lk) \/ (row = [e] /\ q = LSubmit e (b e) false 0)).
Proof.
  induction rows as [|row rows IH]; intros i H; [destruct H|].
  assert (R : In q (matrix_calls b p (S i) rows) -> exists j r e, nth_error (row :: rows) j = Some r /\ In e r /\ ((2 <= length r /\ exists en lk, q = LTid p e (Z.of_nat (i + j)) en lk) \/ (r = [e] /\ q = LSubmit e (b e) false 0))).
  { intros Hq. destruct (IH (S i) Hq) as (j & r & e & A & B & C). exists (S j), r, e. split; [exact A|]. split; [exact B|]. replace (i + S j) with (S i + j) by lia. exact C. }
  destruct row as [|e [|x r]]; cbn [matrix_calls] in H.
  - now apply R.
  - destruct H as [<-|H]; [|now apply R]. exists 0, [e], e. split; [reflexivity|]. split; [now left|]. right. now split.
  - apply in_app_or in H as [H|H]; [|now apply R]. destruct (row_from p i q _ _ H) as (y & en & lk & Y & Q). exists 0, (e :: x :: r), y. split; [reflexivity|]. split; [exact Y|]. left. split; [cbn; lia|].
    exists en, lk. now rewrite Nat.add_0_r.
Qed.
Lemma in_row_calls p i e : forall row f, In e row -> exists en lk, In (LTid p e (Z.of_nat i) en lk) (row_calls p i f row).
Proof.
  induction row as [|x [|y r] IH]; intros f H; [destruct H| |].
  - destruct H as [<-|[]]. exists true, f. now left.
  - change (row_calls p i f (x :: y :: r)) with (LTid p x (Z.of_nat i) f f :: row_calls p i false (y :: r)). destruct H as [<-|H]; [exists f, f; now left|]. destruct (IH false H) as (en & lk & Q). exists en, lk. now right.
Qed.
Definition next_of (c : pecfg) (n : nat) : option plabel := nth_error (run_calls c) n.
Lemma next_nth c e l pre : concat (p_rows (pc_c c)) = pre ++ e :: l -> exists g, nth_error (run_calls c) (length pre) = Some g /\ given1 g = [e] /\ skipn (length pre) (run_calls c) = g :: skipn (S (length pre)) (run_calls c) /\
  length (concat (p_rows (pc_c c))) - length (e :: l) = length pre.
Proof.
  intros E. assert (G : map given1 (run_calls c) = map (fun x => [x]) (pre ++ e :: l)) by (unfold run_calls; rewrite calls_given; now f_equal).
  assert (Len : length (run_calls c) = length (pre ++ e :: l)) by (rewrite <- (map_length given1), G, map_length; reflexivity). rewrite app_length in Len. cbn [length] in Len.
  destruct (nth_error (run_calls c) (length pre)) as [g|] eqn:En; [|apply nth_error_None in En; lia]. exists g. split; [reflexivity|]. split; [|split].
  - pose proof (map_nth_error given1 _ _ En) as M. rewrite G in M. rewrite (map_nth_error (fun x => [x]) (length pre) (pre ++ e :: l) (d := e)) in M; [now injection M|]. rewrite nth_error_app2, Nat.sub_diag by lia. reflexivity.
  - clear - En. revert En. generalize (run_calls c), (length pre). intros l0 n. revert l0. induction n as [|n IH]; intros [|x l0] En; try discriminate; [injection En as ->; reflexivity|]. cbn [skipn]. now apply IH.
  - rewrite E, app_length. cbn [length]. lia.
Qed.

(** * The mutexes of the queues *)
Definition lk_sane (k : cfg) (p : pool) : Prop := forall i u, p_lk p i = Some u -> PoolModel.p_init p = true /\ i < c_def k.
Lemma spawn_init n : forall p, PoolModel.p_init (spawn n p) = PoolModel.p_init p /\ p_lk (spawn n p) = p_lk p.
Proof. induction n as [|n IH]; intros p; cbn [spawn]; [now split|]. match goal with |- PoolModel.p_init (spawn n ?q) = _ /\ _ => destruct (IH q) as [A B] end. split; [rewrite A|rewrite B]; reflexivity. Qed.
Lemma lk_step k p g p' : lk_sane k p -> pool_step k p g = Next p' ->
  lk_sane k p' /\ forall me, (forall t tid en lk, g <> LTid me t tid en lk) -> forall i, p_lk p' i = Some me <-> p_lk p i = Some me.
Proof.
  intros S E.
  assert (SAME : PoolModel.p_init p' = PoolModel.p_init p -> p_lk p' = p_lk p -> lk_sane k p' /\ forall me, (forall t tid en lk, g <> LTid me t tid en lk) -> forall i, p_lk p' i = Some me <-> p_lk p i = Some me).
  { intros A B. unfold lk_sane. rewrite A, B. now split. }
  destruct g as [|t idx busy a|u t tid en lk|u t prio a|u n|u|i ok|j ok|i|j|j|]; cbn [pool_step] in E.
  - injection E as <-. unfold pool_init in *. destruct (PoolModel.p_init p) eqn:Ei; [now apply SAME|].
    assert (L : p_lk (pool_init k p) = fun _ => None) by (unfold pool_init; rewrite Ei; match goal with |- p_lk (spawn ?n ?q) = _ => destruct (spawn_init n q) as [_ ->] end; reflexivity).
    unfold pool_init in L. rewrite Ei in L. unfold lk_sane. rewrite L. split; [discriminate|]. intros me _ i. split; [discriminate|]. intros F. destruct (S i me F). congruence.
  - destruct (dispatch k (p_cur p) idx busy) as [[r cur']|]; [|discriminate]. destruct (dest k r) as [n| |].
    + destruct (PoolModel.p_init p) eqn:Ei; [|discriminate]. destruct (p_lk p n) eqn:El; [discriminate|]. injection E as <-. now apply SAME.
    + injection E as <-. now apply SAME.
    + unfold push_prio in E. destruct (memb _ _); [discriminate|]. injection E as <-. now apply SAME.
  - destruct ((0 <=? tid)%Z && (tid <? Z.of_nat (c_def k))%Z) eqn:B; [|injection E as <-; now apply SAME]. destruct (PoolModel.p_init p) eqn:Ei; cbn [negb] in E; [|discriminate].
    apply Bool.andb_true_iff in B as [B1 B2]. apply Z.leb_le in B1. apply Z.ltb_lt in B2. assert (HT : Z.to_nat tid < c_def k) by lia.
    destruct (en && lk).
    + destruct (p_lk p (Z.to_nat tid)) as [q|] eqn:El; [destruct (Nat.eqb q u); discriminate|]. injection E as <-. split.
      * intros i v F. change (PoolModel.p_init p = true /\ i < c_def k). change (upd (p_lk p) (Z.to_nat tid) (Some u) i = Some v) in F. destruct (Nat.eq_dec i (Z.to_nat tid)) as [->|D]; [now split|]. rewrite upd_other in F by trivial. now apply (S i v).
      * intros me NM i. change (upd (p_lk p) (Z.to_nat tid) (Some u) i = Some me <-> p_lk p i = Some me). destruct (Nat.eq_dec i (Z.to_nat tid)) as [->|D]; [|rewrite upd_other by trivial; easy]. rewrite upd_same, El. split; [|discriminate].
        intros F. injection F as ->. exfalso. eapply NM. reflexivity.
    + destruct (p_lk p (Z.to_nat tid)) as [q|] eqn:El; [|discriminate]. destruct (Nat.eqb_spec q u) as [->|]; [|discriminate]. injection E as <-. destruct en.
      * split.
        -- intros i v F. change (PoolModel.p_init p = true /\ i < c_def k). change (upd (p_lk p) (Z.to_nat tid) None i = Some v) in F. destruct (Nat.eq_dec i (Z.to_nat tid)) as [->|D]; [now split|]. rewrite upd_other in F by trivial. now apply (S i v).
        -- intros me NM i. change (upd (p_lk p) (Z.to_nat tid) None i = Some me <-> p_lk p i = Some me). destruct (Nat.eq_dec i (Z.to_nat tid)) as [->|D]; [|rewrite upd_other by trivial; easy]. rewrite upd_same, El. split; [discriminate|].
           intros F. injection F as ->. exfalso. eapply NM. reflexivity.
      * now apply SAME.
  - destruct (find_call u (p_call p)); [discriminate|]. injection E as <-. now apply SAME.
  - destruct (find_call u (p_call p)); [discriminate|]. injection E as <-. now apply SAME.
  - destruct (find_call u (p_call p)) as [q|]; [|discriminate]. destruct (spawn_init (Z.to_nat (k_num q)) p) as [A B]. destruct (k_task q) as [[a [prio t]]|].
    + unfold push_prio in E. destruct (memb a _); [discriminate|]. injection E as <-. now apply SAME.
    + injection E as <-. now apply SAME.
  - unfold prim_step in E. destruct (p_pt p i) as [| |n|q|]; try discriminate.
    + injection E as <-. now apply SAME.
    + destruct n as [|n].
      * destruct (if ok then p_lk p i else Some 0), (own_take k (p_wsq p i)) as [[|y a] b]; injection E as <-; now apply SAME.
      * destruct (nth_error (targets k i) n) as [m|].
        -- destruct (if ok then p_lk p m else Some 0), (steal_take k (p_wsq p m)) as [[|y a] b]; injection E as <-; now apply SAME.
        -- destruct ok, (pool_take k (p_q p)) as [[|y a] b]; injection E as <-; now apply SAME.
    + destruct q; injection E as <-; now apply SAME.
  - unfold sec_step in E. destruct (p_st p j) as [| | | |q|]; try discriminate.
    + injection E as <-. now apply SAME.
    + destruct ok, (pool_take k (p_q p)) as [[|y a] b]; injection E as <-; now apply SAME.
    + destruct ok, (prio_take (p_prio p)) as [[|y a] b]; injection E as <-; now apply SAME.
    + destruct ok, (p_q p) as [|y b]; injection E as <-; now apply SAME.
    + destruct q; injection E as <-; now apply SAME.
  - destruct (PoolModel.p_init p && Nat.ltb i (c_def k)); [|discriminate]. injection E as <-. now apply SAME.
  - destruct (memb j (p_sec p)); [|discriminate]. injection E as <-. now apply SAME.
  - destruct (p_st p j); try discriminate. destruct (memb j (p_sec p)); [|discriminate]. injection E as <-. now apply SAME.
  - destruct (PoolModel.p_init p && _ && _); [|discriminate]. destruct (existsb _ _) eqn:X; [discriminate|]. injection E as <-. split; [|easy].
    intros i u F. cbn in F. exfalso. destruct (S i u F) as [_ B]. assert (T : existsb (fun i => match p_lk p i with Some _ => true | None => false end) (seq 0 (c_def k)) = true) by (apply existsb_exists; exists i; split; [apply in_seq; lia|now rewrite F]). congruence.
Qed.
(** Which mutex the caller holds after a prefix of its calls *)
Definition holds (k : cfg) (me : nat) (o : option nat) (p : pool) : Prop := forall i, p_lk p i = Some me <-> o = Some i /\ i < c_def k.
Lemma own_call k me o g r b a p p' : proto me o (g :: r) -> holds k me o p -> lk_sane k p -> pool_step k p (with_choice b a g) = Next p' -> exists o', proto me o' r /\ holds k me o' p'.
Proof.
  intros P H S E. destruct g as [|t idx busy x|u t tid en lk|u t prio x|u n|u|i ok|j ok|i|j|j|]; try contradiction; cbn [proto] in P.
  - destruct P as [-> P]. exists None. split; [exact P|]. destruct (lk_step k p _ p' S E) as [_ L]. intros i. rewrite (L me); [|intros; discriminate]. apply H.
  - destruct P as (i & -> & -> & P). cbn [with_choice pool_step] in E. destruct lk.
    + destruct P as (-> & -> & P). exists (Some i). split; [exact P|]. destruct ((0 <=? Z.of_nat i)%Z && (Z.of_nat i <? Z.of_nat (c_def k))%Z) eqn:B.
      * destruct (negb _); [discriminate|]. cbn [andb] in E. rewrite Nat2Z.id in E. destruct (p_lk p i) as [q|] eqn:El; [destruct (Nat.eqb q me); discriminate|]. injection E as <-. intros n.
        change (upd (p_lk p) i (Some me) n = Some me <-> Some i = Some n /\ n < c_def k). destruct (Nat.eq_dec n i) as [->|D].
        -- rewrite upd_same. split; [|easy]. intros _. split; [reflexivity|]. apply Bool.andb_true_iff in B as [_ B]. apply Z.ltb_lt in B. lia.
        -- rewrite upd_other by trivial. split; [|intros [F _]; congruence]. intros F. apply H in F as [F _]. discriminate.
      * injection E as <-. intros n. change (p_lk p n = Some me <-> Some i = Some n /\ n < c_def k). split; [intros F; apply H in F as [F _]; discriminate|]. intros [F L]. injection F as ->. exfalso.
        apply Bool.andb_false_iff in B as [B|B]; [apply Z.leb_gt in B|apply Z.ltb_ge in B]; lia.
    + destruct P as (-> & P). exists (if en then None else Some i). split; [exact P|]. rewrite Bool.andb_false_r in E. destruct ((0 <=? Z.of_nat i)%Z && (Z.of_nat i <? Z.of_nat (c_def k))%Z) eqn:B.
      * destruct (negb _); [discriminate|]. rewrite Nat2Z.id in E. destruct (p_lk p i) as [q|] eqn:El; [|discriminate]. destruct (Nat.eqb_spec q me) as [->|]; [|discriminate]. injection E as <-. intros n. destruct en.
        -- change (upd (p_lk p) i None n = Some me <-> None = Some n /\ n < c_def k). split; [|now intros [F _]]. destruct (Nat.eq_dec n i) as [->|D]; [rewrite upd_same; discriminate|]. rewrite upd_other by trivial. intros F. apply H in F as [F _]. congruence.
        -- exact (H n).
      * injection E as <-. intros n. change (p_lk p n = Some me <-> (if en then None else Some i) = Some n /\ n < c_def k). pose proof (H n) as Hn. assert (NB : ~ i < c_def k) by (apply Bool.andb_false_iff in B as [B|B]; [apply Z.leb_gt in B|apply Z.ltb_ge in B]; lia).
        destruct en; [|exact Hn]. split; [|now intros [F _]]. intros F. apply Hn in F as [F L]. injection F as ->. contradiction.
Qed.
(** The calls of the caller itself: undefined behaviour is impossible while the pool is initialised, refusal means that another caller has the queue *)
Lemma own_defined k me o g r b a p : proto me o (g :: r) -> holds k me o p -> PoolModel.p_init p = true -> (forall t i x y, g <> LSubmit t i x y) ->
  pool_step k p (with_choice b a g) <> Undef.
Proof.
  intros P H I NS E. destruct g as [|t idx busy x|u t tid en lk|u t prio x|u n|u|i ok|j ok|i|j|j|]; try contradiction; cbn [proto] in P; [exfalso; eapply NS; reflexivity|].
  destruct P as (i & -> & -> & P). cbn [with_choice pool_step] in E. destruct ((0 <=? Z.of_nat i)%Z && (Z.of_nat i <? Z.of_nat (c_def k))%Z) eqn:B; [|discriminate]. rewrite I in E. cbn [negb] in E. rewrite Nat2Z.id in E. destruct lk.
  - destruct P as (-> & -> & P). cbn [andb] in E. destruct (p_lk p i) as [q|] eqn:El; [|discriminate]. destruct (Nat.eqb_spec q me) as [->|]; [|discriminate]. apply H in El as [F _]. discriminate.
  - destruct P as (-> & P). rewrite Bool.andb_false_r in E. assert (L : p_lk p i = Some me) by (apply H; split; [reflexivity|]; apply Bool.andb_true_iff in B as [_ B]; apply Z.ltb_lt in B; lia). rewrite L, Nat.eqb_refl in E. discriminate.
Qed.

(** * Everything together; [hp]: the actions of the pool *)
Definition tok (o : pop) : option nat := match o with PTest e | PStart e => Some e | _ => None end.
Definition cut (c : pecfg) (k : cfg) (m : pphase) (p : pool) : Prop :=
  match m with
  | QPush l => exists pre o, concat (p_rows (pc_c c)) = pre ++ l /\ proto (pc_me c) o (skipn (length pre) (run_calls c)) /\ holds k (pc_me c) o p
  | _ => forall i, p_lk p i <> Some (pc_me c)
  end.
Record yinv (c : pecfg) (k : cfg) (hp : list plabel) (s : peng) : Prop :=
  { yi_p : pool_run k pool_new hp = Some (pe_p s);
    yi_g : forall g t, In g hp -> In t (given1 g) -> In t (p_els (pc_c c)) -> exists q b a, In q (run_calls c) /\ g = with_choice b a q;
    yi_l : length (pe_who s) = length (p_act (pe_s s));
    yi_t : forall i o e, nth_error (p_act (pe_s s)) i = Some o -> tok o = Some e -> exists w, nth_error (pe_who s) i = Some w /\ belongs c k e w;
    yi_c : forall t, In t (p_els (pc_c c)) -> census k (pe_p s) t = cnt t (p_log (pe_p s)) + cnt t (p_pool (pe_s s));
    yi_k : lk_sane k (pe_p s);
    yi_m : cut c k (p_main (pe_s s)) (pe_p s) }.
Lemma with_given b a g : given1 (with_choice b a g) = given1 g.
Proof. now destruct g. Qed.
Lemma with_may k w b a g : may k w (with_choice b a g) <-> may k w g.
Proof. now destruct g. Qed.
Lemma with_exec b a g p : executes p g = None -> executes p (with_choice b a g) = None.
Proof. now destruct g. Qed.
Lemma calls_exec c g p : In g (run_calls c) -> executes p g = None.
Proof. intros H. destruct (calls_from _ _ _ _ _ H) as (j & row & e & _ & _ & [(_ & en & lk & ->)|(_ & ->)]); reflexivity. Qed.
Lemma ytaken c k hp s l p w t : yinv c k hp s -> pool_step k (pe_p s) l = Next p -> executes (pe_p s) l = Some (w, t) -> In t (p_els (pc_c c)) -> In t (p_pool (pe_s s)).
Proof.
  intros I E X H. apply cnt_in. pose proof (yi_c _ _ _ _ I t H) as C. destruct (pool_run_inv k hp pool_new _ (pinv_new k) (yi_p _ _ _ _ I)) as [PI _].
  destruct (pool_step_inv k _ l p PI E) as [_ CE]. specialize (CE t). assert (G : given1 l = []) by (destruct l; cbn [executes] in X; try discriminate; reflexivity). rewrite G in CE. cbn in CE.
  pose proof (census_ge k p t) as CG. pose proof (executes_log k _ l p E) as L. rewrite X in L. rewrite L, cnt_cons in CG. assert (O : cnt t [t] = 1) by (cbn; now destruct (Nat.eq_dec t t)).
  destruct (drop_app k _ l p E) as (y & D). rewrite D, cnt_app in CG. lia.
Qed.
Lemma call_belongs c k w q e : In q (run_calls c) -> In e (given1 q) -> may k w q -> belongs c k e w.
Proof.
  intros H G M. destruct (calls_from _ _ _ _ _ H) as (j & row & x & N & R & [(L & en & lk & ->)|(-> & ->)]); destruct G as [<-|[]].
  - exists j, row. split; [exact N|]. split; [exact R|]. cbn [may] in M. cbn [plus] in M. rewrite Nat2Z.id in M. split; [|lia]. intros _ J. apply M. unfold is_thread. lia.
  - exists j, [x]. split; [exact N|]. split; [exact R|]. split; [cbn; lia|]. intros _. exact M.
Qed.
Lemma yexec_allowed c k hp s l p w t : yinv c k hp s -> pool_step k (pe_p s) l = Next p -> executes (pe_p s) l = Some (w, t) -> In t (p_els (pc_c c)) -> belongs c k t w.
Proof.
  intros I E X H.
  assert (P : places k (fun w t => exists g, In g hp /\ In t (given1 g) /\ may k w g) (pe_p s)).
  { apply (places_run k _ hp pool_new); [apply pinv_new|apply places_new| |exact (yi_p _ _ _ _ I)]. intros g x v Hg Hx Hm. now exists g. }
  assert (Y : exists g, In g hp /\ In t (given1 g) /\ may k w g).
  { destruct l; cbn [executes] in X; try discriminate.
    - destruct (p_pt (pe_p s) i) as [| |q|[|x r]|] eqn:Ep; try discriminate. injection X as <- <-. apply (pl_pt _ _ _ P). rewrite Ep. now left.
    - destruct (p_st (pe_p s) j) as [| | | |[|x r]|] eqn:Ep; try discriminate. injection X as <- <-. apply (pl_st _ _ _ P). rewrite Ep. now left. }
  destruct Y as (g & G1 & G2 & G3). destruct (yi_g _ _ _ _ I g t G1 G2 H) as (q & b & a & Q & ->). rewrite with_given in G2. apply (call_belongs c k w q t Q G2). now apply with_may in G3.
Qed.
Definition fast1 (c : pecfg) (s : peng) (l : ylabel) : list dlabel :=
  match l with
  | YEng l _ _ => [l]
  | YPool l => match executes (pe_p s) l with Some (_, t) => if memb t (p_els (pc_c c)) then [LPick (index_of t (p_pool (pe_s s)))] else [] | None => [] end
  end.
Definition ypool1 (c : pecfg) (s : peng) (l : ylabel) : list plabel :=
  match l with
  | YEng (LMain _) busy a => match next_call c (p_main (pe_s s)) busy a with Some g => [g] | None => [] end
  | YEng _ _ _ => []
  | YPool l => [l]
  end.
(** The engine alone *)
Definition no_push (m : pphase) : Prop := match m with QPush (_ :: _) => False | _ => True end.
Lemma pstep_pool c d l d' : pstep c d l = Some d' -> (forall i, l <> LPick i) -> p_pool d' = p_pool d ++ match l, p_main d with LMain _, QPush (e :: _) => [e] | _, _ => [] end.
Proof.
  intros E NP. destruct l as [|r|i r|i|]; cbn [pstep] in E.
  - destruct (p_main d); try discriminate. injection E as <-. cbn. now rewrite app_nil_r.
  - destruct (p_main d) as [| | |[|e l]|[|n]| | | | | |]; try discriminate; injection E as <-; cbn; now rewrite ?app_nil_r.
  - destruct (nth_error (p_act d) i) as [o|]; [|discriminate]. destruct (pop_enabled (p_main d) o); [|discriminate]. destruct (pop_sem c (p_num d) (p_stat d) (p_tr d) o r) as [[[[num st] tr] nx] nt]. injection E as <-. cbn. now rewrite app_nil_r.
  - exfalso. now apply (NP i).
  - destruct (p_main d); try discriminate. injection E as <-. cbn. now rewrite app_nil_r.
Qed.
Definition who_after (l : dlabel) (d d' : pst) (who : list thr) : list thr :=
  match l with LWork i _ => if Nat.ltb (length (p_act d')) (length (p_act d)) then remove_nth i who else who | _ => who end.
Lemma pstep_who c d l d' who (A : nat -> thr -> Prop) : pstep c d l = Some d' -> (forall i, l <> LPick i) -> length who = length (p_act d) ->
  (forall i o e, nth_error (p_act d) i = Some o -> tok o = Some e -> exists w, nth_error who i = Some w /\ A e w) ->
  length (who_after l d d' who) = length (p_act d') /\ (forall i o e, nth_error (p_act d') i = Some o -> tok o = Some e -> exists w, nth_error (who_after l d d' who) i = Some w /\ A e w).
Proof.
  intros E NP L T. assert (SAME : p_act d' = p_act d -> length who = length (p_act d') /\ (forall i o e, nth_error (p_act d') i = Some o -> tok o = Some e -> exists w, nth_error who i = Some w /\ A e w)) by (intros ->; now split).
  destruct l as [|r|i r|i|]; cbn [pstep who_after] in *.
  - destruct (p_main d); try discriminate. injection E as <-. now apply SAME.
  - destruct (p_main d) as [| | |[|e l]|[|n]| | | | | |]; try discriminate; injection E as <-; now apply SAME.
  - destruct (nth_error (p_act d) i) as [o|] eqn:En; [|discriminate]. destruct (pop_enabled (p_main d) o); [|discriminate]. destruct (pop_sem c (p_num d) (p_stat d) (p_tr d) o r) as [[[[num st] tr] nx] nt] eqn:Es. injection E as <-. cbn [p_act].
    assert (NX : forall o' e, nx = Some o' -> tok o' = Some e -> tok o = Some e).
    { intros o' e -> X. assert (F : match o with PTest y => (if isErr (p_stat d) then None else Some (PStart y)) = Some o' | PStart y => PBody y = o' | PBody y => (if isErr r then PErr y r else PCount y) = o' | PErr y _ => PCount y = o'
                                    | PCount y => PCheck (S (p_num d)) = o' | PCheck n => (if Nat.leb (length (p_els c)) n || isErr (p_stat d) then Some PNotify else None) = Some o' | PNotify => False end) by (destruct o; cbn [pop_sem] in Es; congruence).
      destruct o; cbn [tok] in *; try (destruct (isErr _)); try (destruct (_ || _)); try discriminate; try contradiction; try injection F as <-; subst; try discriminate; exact X. }
    destruct (nth_error who i) as [w|] eqn:Ew; [|apply nth_error_None in Ew; assert (i < length (p_act d)) by (apply nth_error_Some; congruence); lia].
    destruct nx as [o'|].
    + rewrite replace_nth_length, Nat.ltb_irrefl. split; [exact L|]. intros j q e Hj Hq. destruct (nth_replace i _ j q _ Hj) as [[-> ->]|[D Hj']]; [|now apply (T j q)]. apply (T i o); [exact En|]. now apply (NX o').
    + pose proof (remove_nth_length i (p_act d) _ En) as R1. pose proof (remove_nth_length i who w Ew) as R2. destruct (Nat.ltb_spec (length (remove_nth i (p_act d))) (length (p_act d))) as [_|F]; [|lia]. split; [lia|].
      intros j q e Hj Hq. assert (Hlt : j < length (remove_nth i who)) by (assert (j < length (remove_nth i (p_act d))) by (apply nth_error_Some; congruence); lia).
      destruct (T (if Nat.ltb j i then j else S j) q e) as (w' & W1 & W2); [now apply nth_remove|exact Hq|]. exists w'. split; [|exact W2].
      destruct (nth_error (remove_nth i who) j) as [y|] eqn:Ey; [|apply nth_error_None in Ey; lia]. apply nth_remove in Ey. congruence.
  - exfalso. now apply (NP i).
  - destruct (p_main d); try discriminate. injection E as <-. now apply SAME.
Qed.
(** What a step of the engine that is no call does to the position in the loop *)
Lemma cut_same c k d l d' p w : (forall e r, p_main d <> QPush (e :: r)) \/ (forall r, l <> LMain r) -> pstep (wide (pc_c c) w) d l = Some d' -> cut c k (p_main d) p -> cut c k (p_main d') p.
Proof.
  intros N E H. destruct l as [|r|i r|i|]; cbn [pstep] in E.
  - destruct (p_main d) eqn:Em; try discriminate. injection E as <-. exact H.
  - destruct N as [N|N]; [|exfalso; eapply N; reflexivity]. destruct (p_main d) as [| | |[|e l]|[|n]| | | | | |] eqn:Em; try discriminate; injection E as <-; cbn [p_main]; try exact H.
    + cbn. exists [], None. split; [reflexivity|]. split; [apply calls_proto|]. intros i. split; [intros F; now apply H in F|]. intros [F _]. discriminate.
    + cbn in H. destruct H as (pre & o & A & B & C). rewrite app_nil_r in A. assert (Z : skipn (length pre) (run_calls c) = []) by (apply skipn_all2; unfold run_calls; rewrite calls_len, A; lia). rewrite Z in B. cbn in B. subst o.
      cbn. intros i F. apply C in F as [F _]. discriminate.
    + exfalso. eapply N. reflexivity.
    + destruct (Nat.leb _ _); exact H.
    + destruct (Nat.leb _ _); exact H.
    + destruct (isErr _); exact H.
  - destruct (nth_error (p_act d) i) as [o|]; [|discriminate]. destruct (pop_enabled (p_main d) o); [|discriminate]. destruct (pop_sem _ (p_num d) (p_stat d) (p_tr d) o r) as [[[[num st] tr] nx] nt]. injection E as <-. cbn [p_main].
    destruct (p_main d), nt; exact H.
  - destruct (Nat.ltb _ _); [|discriminate]. destruct (nth_error _ _); [|discriminate]. injection E as <-. exact H.
  - destruct (p_main d) eqn:Em; try discriminate. injection E as <-. exact H.
Qed.
Lemma cut_pool c k m p p' : (forall i, p_lk p' i = Some (pc_me c) <-> p_lk p i = Some (pc_me c)) -> cut c k m p -> cut c k m p'.
Proof.
  intros L H. assert (X : (forall i, p_lk p i <> Some (pc_me c)) -> forall i, p_lk p' i <> Some (pc_me c)) by (intros Y i F; apply L in F; now apply (Y i)).
  destruct m; cbn [cut] in *; auto. destruct H as (pre & o & A & B & C). exists pre, o. split; [exact A|]. split; [exact B|]. intros i. rewrite L. apply C.
Qed.
Lemma ystep_eng c k s l busy a s' : ystep c k s (YEng l busy a) = Some s' ->
  (forall i, l <> LPick i) /\ exists d, pstep (wide (pc_c c) (pe_s s)) (pe_s s) l = Some d /\
  ((match l with LMain _ => next_call c (p_main (pe_s s)) busy a | _ => None end = None /\ s' = mkPE d (pe_p s) (who_after l (pe_s s) d (pe_who s))) \/
   (exists r g p, l = LMain r /\ next_call c (p_main (pe_s s)) busy a = Some g /\ pool_step k (pe_p s) g = Next p /\ s' = mkPE d p (pe_who s))).
Proof.
  intros E. assert (NP : forall i, l <> LPick i) by (intros i ->; discriminate). split; [exact NP|].
  destruct l as [|r|i r|i|]; cbn [ystep] in E; try (now destruct (NP i)).
  - destruct (pstep _ _ _) as [d|] eqn:Ed; [|discriminate]. injection E as <-. exists d. split; [reflexivity|]. now left.
  - destruct (pstep _ _ _) as [d|] eqn:Ed; [|discriminate]. exists d. split; [reflexivity|]. destruct (next_call _ _ _ _) as [g|] eqn:Eg.
    + destruct (pool_step k (pe_p s) g) as [| |p] eqn:Ep; try discriminate. injection E as <-. right. now exists r, g, p.
    + injection E as <-. now left.
  - destruct (pstep _ _ _) as [d|] eqn:Ed; [|discriminate]. injection E as <-. exists d. split; [reflexivity|]. now left.
  - destruct (pstep _ _ _) as [d|] eqn:Ed; [|discriminate]. injection E as <-. exists d. split; [reflexivity|]. now left.
Qed.
Lemma ystep_pool c k s l s' : ystep c k s (YPool l) = Some s' ->
  (forall t, In t (given1 l) -> ~ In t (p_els (pc_c c))) /\ inside (pe_who s) l = false /\ (forall t tid en lk, l <> LTid (pc_me c) t tid en lk) /\
  exists p, pool_step k (pe_p s) l = Next p /\
  ((exists w t d, executes (pe_p s) l = Some (w, t) /\ In t (p_els (pc_c c)) /\ pstep (wide (pc_c c) (pe_s s)) (pe_s s) (LPick (index_of t (p_pool (pe_s s)))) = Some d /\ s' = mkPE d p (pe_who s ++ [w])) \/
   ((forall w t, executes (pe_p s) l = Some (w, t) -> ~ In t (p_els (pc_c c))) /\ s' = mkPE (pe_s s) p (pe_who s))).
Proof.
  intros E. cbn [ystep] in E. destruct (existsb _ _) eqn:EX; cbn [orb] in E; [discriminate|]. destruct (inside (pe_who s) l); cbn [orb] in E; [discriminate|].
  destruct (match l with LTid u _ _ _ _ => Nat.eqb u (pc_me c) | _ => false end) eqn:ET; [discriminate|].
  split. { intros t Ht He. assert (F : existsb (fun t => memb t (p_els (pc_c c))) (given1 l) = true) by (apply existsb_exists; exists t; split; [exact Ht|now apply memb_in]). congruence. }
  split; [reflexivity|]. split. { intros t tid en lk ->. now rewrite Nat.eqb_refl in ET. }
  destruct (pool_step k (pe_p s) l) as [| |p] eqn:Ep; try discriminate. exists p. split; [reflexivity|]. destruct (executes (pe_p s) l) as [[w t]|] eqn:Ex.
  - destruct (memb t (p_els (pc_c c))) eqn:Em.
    + destruct (pstep _ _ _) as [d|] eqn:Ed; [|discriminate]. injection E as <-. apply memb_in in Em. left. now exists w, t, d.
    + injection E as <-. right. split; [|reflexivity]. intros w' t' F. injection F as <- <-. intros F. apply memb_in in F. congruence.
  - injection E as <-. right. split; [discriminate|reflexivity].
Qed.
Lemma next_push c m b a g : next_call c m b a = Some g -> exists e l q, m = QPush (e :: l) /\ nth_error (run_calls c) (length (concat (p_rows (pc_c c))) - length (e :: l)) = Some q /\ g = with_choice b a q.
Proof.
  unfold next_call. destruct m as [| | |[|e l]| | | | | | |]; try discriminate. intros H. destruct (nth_error _ _) as [q|] eqn:En; [|discriminate]. injection H as <-. now exists e, l, q.
Qed.
Lemma wide_pick c d i d' e : pstep (wide c d) d (LPick i) = Some d' -> nth_error (p_pool d) i = Some e ->
  p_act d' = p_act d ++ [PTest e] /\ p_main d' = p_main d /\ (forall t, cnt t (p_pool d) = cnt t [e] + cnt t (p_pool d')).
Proof.
  intros E En. cbn [pstep] in E. destruct (Nat.ltb _ _); [|discriminate]. rewrite En in E. injection E as <-. split; [reflexivity|]. split; [reflexivity|]. intros t. cbn [p_pool].
  pose proof (nth_error_remove i (p_pool d) e En) as P. apply (Permutation_count_occ Nat.eq_dec) with (x := t) in P. rewrite P, cnt_cons. reflexivity.
Qed.
Lemma ystep_inv c k hp s l s' : yinv c k hp s -> ystep c k s l = Some s' -> yinv c k (hp ++ ypool1 c s l) s'.
Proof.
  intros I E. destruct (pool_run_inv k hp pool_new _ (pinv_new k) (yi_p _ _ _ _ I)) as [PI _]. destruct l as [l busy a|l].
  - destruct (ystep_eng c k s l busy a s' E) as (NP & d & Ed & [[Eg ->]|(r & g & p & -> & Eg & Ep & ->)]).
    + assert (HP : ypool1 c s (YEng l busy a) = []) by (unfold ypool1; destruct l; trivial; now rewrite Eg). rewrite HP, app_nil_r.
      assert (NM : (forall e r, p_main (pe_s s) <> QPush (e :: r)) \/ (forall r, l <> LMain r)).
      { destruct l; try (right; congruence). left. intros e r0 F. pose proof (yi_m _ _ _ _ I) as M. rewrite F in M. destruct M as (pre & o & A & _). destruct (next_nth c e r0 pre A) as (g & G1 & _ & _ & G4). rewrite F in Eg. unfold next_call in Eg. rewrite G4, G1 in Eg. discriminate. }
      destruct (pstep_who _ _ l d (pe_who s) (belongs c k) Ed NP (yi_l _ _ _ _ I) (yi_t _ _ _ _ I)) as [W1 W2].
      constructor; cbn [pe_s pe_p pe_who]; [exact (yi_p _ _ _ _ I)|exact (yi_g _ _ _ _ I)|exact W1|exact W2| |exact (yi_k _ _ _ _ I)|exact (cut_same c k _ l d _ _ NM Ed (yi_m _ _ _ _ I))].
      intros t Ht. rewrite (pstep_pool _ _ l d Ed NP). destruct NM as [NM|NM].
      * destruct l, (p_main (pe_s s)) as [| | |[|e r9]| | | | | | |]; try (now destruct (NM e r9)); rewrite app_nil_r; now apply (yi_c _ _ _ _ I).
      * destruct l; try (now destruct (NM r)); rewrite app_nil_r; now apply (yi_c _ _ _ _ I).
    + destruct (next_push c _ _ _ _ Eg) as (e & l & q & Em & En & ->). pose proof (yi_m _ _ _ _ I) as M. rewrite Em in M. destruct M as (pre & o & A & B & C). destruct (next_nth c e l pre A) as (q' & G1 & G2 & G3 & G4). rewrite G4 in En.
      assert (q' = q) by congruence. subst q'. clear G1. assert (HP : ypool1 c s (YEng (LMain r) busy a) = [with_choice busy a q]) by (cbn [ypool1]; now rewrite Eg). rewrite HP.
      assert (Ed' : d = mkP (p_num (pe_s s)) (p_stat (pe_s s)) (p_tr (pe_s s)) (p_pool (pe_s s) ++ [e]) (p_act (pe_s s)) (QPush l) (p_out (pe_s s))) by (cbn [pstep] in Ed; rewrite Em in Ed; congruence). subst d.
      assert (IQ : In q (run_calls c)) by (now apply nth_error_In in En). constructor; cbn [pe_s pe_p pe_who p_act p_pool p_main].
      * rewrite prun_app, (yi_p _ _ _ _ I). cbn [pool_run]. now rewrite Ep.
      * intros g t Hg Ht He. apply in_app_or in Hg as [Hg|[Hg|[]]]; [now apply (yi_g _ _ _ _ I g t)|]. subst g. now exists q, busy, a.
      * exact (yi_l _ _ _ _ I).
      * exact (yi_t _ _ _ _ I).
      * intros t Ht. destruct (pool_step_inv k _ _ p PI Ep) as [_ CE]. rewrite (CE t), (executes_log k _ _ p Ep), cnt_app, with_exec, with_given, G2 by (now apply (calls_exec c)).
        pose proof (yi_c _ _ _ _ I t Ht). lia.
      * now destruct (lk_step k _ _ p (yi_k _ _ _ _ I) Ep).
      * rewrite G3 in B. destruct (own_call k (pc_me c) o q _ busy a _ p B C (yi_k _ _ _ _ I) Ep) as (o' & B' & C'). cbn [cut]. exists (pre ++ [e]), o'. split; [now rewrite <- app_assoc|]. rewrite app_length. cbn [length]. rewrite Nat.add_1_r. now split.
  - cbn [ypool1]. destruct (ystep_pool c k s l s' E) as (HG & _ & NT & p & Ep & HC). destruct (lk_step k _ _ p (yi_k _ _ _ _ I) Ep) as [KS KM]. specialize (KM (pc_me c) NT).
    assert (HP : pool_run k pool_new (hp ++ [l]) = Some p) by (rewrite prun_app, (yi_p _ _ _ _ I); cbn [pool_run]; now rewrite Ep).
    assert (HG2 : forall g t, In g (hp ++ [l]) -> In t (given1 g) -> In t (p_els (pc_c c)) -> exists q b a, In q (run_calls c) /\ g = with_choice b a q).
    { intros g t Hg Ht He. apply in_app_or in Hg as [Hg|[<-|[]]]; [now apply (yi_g _ _ _ _ I g t)|]. destruct (HG t Ht He). }
    destruct (pool_step_inv k _ _ p PI Ep) as [_ CE]. pose proof (executes_log k _ _ p Ep) as LG.
    assert (CT : forall t, In t (p_els (pc_c c)) -> census k p t = census k (pe_p s) t) by (intros t Ht; rewrite (CE t); assert (Z : cnt t (given1 l) = 0) by (apply cnt_notin; intros F; now apply (HG t)); lia).
    destruct HC as [(w & t & d & Ex & Em & Ed & ->)|(NE & ->)].
    + pose proof (ytaken c k hp s l p w t I Ep Ex Em) as TK. pose proof (index_of_nth t _ TK) as IN. destruct (wide_pick _ _ _ d t Ed IN) as (Q1 & Q2 & Q3). rewrite Ex in LG. constructor; cbn [pe_s pe_p pe_who].
      * exact HP.
      * exact HG2.
      * rewrite Q1, !app_length. cbn. now rewrite (yi_l _ _ _ _ I).
      * rewrite Q1. pose proof (yi_l _ _ _ _ I) as L. intros j q x Hj Hq. destruct (Nat.lt_ge_cases j (length (p_act (pe_s s)))) as [J|J].
        -- rewrite nth_error_app1 in Hj by trivial. destruct (yi_t _ _ _ _ I j q x Hj Hq) as (w' & W1 & W2). exists w'. split; [|exact W2]. rewrite nth_error_app1; [exact W1|lia].
        -- rewrite nth_error_app2 in Hj by trivial. destruct (j - length (p_act (pe_s s))) as [|m] eqn:Ej; [|destruct m; discriminate]. cbn in Hj. injection Hj as <-. cbn in Hq. injection Hq as <-.
           exists w. split; [|now apply (yexec_allowed c k hp s l p w t I Ep)]. rewrite nth_error_app2 by lia. now replace (j - length (pe_who s)) with 0 by lia.
      * intros x Hx. rewrite (CT x Hx), LG, cnt_cons. pose proof (yi_c _ _ _ _ I x Hx). specialize (Q3 x). lia.
      * exact KS.
      * rewrite Q2. exact (cut_pool c k _ _ p KM (yi_m _ _ _ _ I)).
    + constructor; cbn [pe_s pe_p pe_who]; [exact HP|exact HG2|exact (yi_l _ _ _ _ I)|exact (yi_t _ _ _ _ I)| |exact KS|exact (cut_pool c k _ _ p KM (yi_m _ _ _ _ I))].
      intros x Hx. rewrite (CT x Hx), LG. pose proof (yi_c _ _ _ _ I x Hx). destruct (executes (pe_p s) l) as [[w t]|] eqn:Ex; [|exact H]. rewrite cnt_cons.
      assert (NX : x <> t) by (intros ->; now apply (NE w t)). assert (Z : cnt x [t] = 0) by (apply cnt_notin; intros [F|[]]; congruence). lia.
Qed.
Lemma yinv_new c k : yinv c k [] peng_new.
Proof.
  constructor; cbn [peng_new pe_s pe_p pe_who]; [reflexivity|intros g t []|reflexivity|intros [|i] o e F; discriminate| |discriminate|discriminate].
  intros t _. now rewrite census_new.
Qed.
Lemma yrun_inv c k : forall ls hp s s', yinv c k hp s -> yrun c k s ls = Some s' -> yinv c k (hp ++ pool_part2 c k s ls) s'.
Proof.
  induction ls as [|l r IH]; intros hp s s' I E; cbn [yrun pool_part2] in *; [injection E as <-; now rewrite app_nil_r|].
  destruct (ystep c k s l) as [s1|] eqn:E1; [|discriminate]. rewrite app_assoc. apply IH; trivial. pose proof (ystep_inv c k hp s l s1 I E1) as J. destruct l as [[]|]; exact J.
Qed.
