(** C108: an element with a binding index is executed by the thread it asks for, or by one that may take the tasks of that thread *)
From Verif Require Import EngPoolSpec DynProofs PoolProofs BindProofs BindProps EngPoolProofs.
From Coq Require Import Lia.
Local Open Scope nat_scope.
Local Open Scope list_scope.

Lemma app_one_inv {A} (l : list A) x : l <> l ++ [x].
Proof. intros H. apply (f_equal (@length A)) in H. rewrite app_length in H. cbn in H. lia. Qed.
Lemma op_starts c sh o r sh' new enq nt e : op_sem c sh o r = (sh', new, enq, nt) -> sh_tr sh' = sh_tr sh ++ [GStart e] -> o = OExec e.
Proof.
  intros E H. destruct o as [x aff|x|x|x|x r0| |x|x l res|x|]; cbn [op_sem] in E.
  - destruct (isErr (sh_stat sh)); [injection E as <- <- <- <-; now apply app_one_inv in H|]. destruct (aff && is_default c x); injection E as <- <- <- <-; now apply app_one_inv in H.
  - injection E as <- <- <- <-; now apply app_one_inv in H.
  - injection E as <- <- <- <-. cbn in H. apply app_inv_head in H. now injection H as <-.
  - destruct (isErr r); injection E as <- <- <- <-; cbn in H; apply app_inv_head in H; discriminate.
  - injection E as <- <- <- <-; now apply app_one_inv in H.
  - injection E as <- <- <- <-; now apply app_one_inv in H.
  - destruct (isErr (sh_stat sh)); [injection E as <- <- <- <-; now apply app_one_inv in H|]. destruct (calc_shape (c_g c) (c_bind c) x); injection E as <- <- <- <-; now apply app_one_inv in H.
  - destruct l as [|y l]; [destruct res; injection E as <- <- <- <-; now apply app_one_inv in H|]. destruct ((sh_left sh y - 1 =? 0)%Z); [destruct res|]; injection E as <- <- <- <-; now apply app_one_inv in H.
  - injection E as <- <- <- <-; now apply app_one_inv in H.
  - injection E as <- <- <- <-; now apply app_one_inv in H.
Qed.

(** In every history of the engine and the pool, others using the pool as they like: the body of an element with a binding index never starts in the
    thread that called run; it starts in the thread of the index or in one that may steal from it, and for the index of long tasks in a secondary thread. *)
Theorem C108_bound_partial : forall c k ls s l s' e,
  erun c k (eng_new c) ls = Some s -> estep c k s l = Some s' ->
  trace (e_d s') = trace (e_d s) ++ [GStart e] -> c_bind c e <> (-1)%Z ->
  exists w, starts_in s l = Some w /\ obeys k (c_bind c e) w.
Proof.
  intros c k ls s l s' e R E T B. pose proof (erun_inv c k ls [] [] _ _ (einv_new c k) R) as I. cbn [app] in I.
  assert (ND : is_default c e = false) by (unfold is_default; now apply Z.eqb_neq). unfold trace in T.
  destruct l as [l busy a|l]; cbn [estep] in E.
  - assert (E' : exists d, dstep c (e_d s) l = Some d /\ e_d s' = d /\ (forall i, l <> LPick i)).
    { destruct l; try discriminate; (destruct (dstep c (e_d s) _) as [d|]; [|discriminate]); exists d; (split; [reflexivity|]);
        (destruct (gives (e_d s) _); [destruct (pool_step k (e_p s) _); try discriminate|]); injection E as <-; (split; [reflexivity|intros; discriminate]). }
    destruct E' as (d & Ed & Es & NP). rewrite Es in T. clear E. destruct l as [|r|i r|i|]; cbn [dstep] in Ed.
    + destruct (d_main (e_d s)); try discriminate. injection Ed as <-. cbn in T. now destruct (sh_tr (d_sh (e_d s))).
    + destruct (d_main (e_d s)) as [| | |[|o p]|[|n]| | | | | |] eqn:Em; try discriminate;
        try (injection Ed as <-; cbn in T; now apply app_one_inv in T).
      * injection Ed as <-. cbn in T. destruct (isOK (sh_stat (d_sh (e_d s)))); cbn in T; now apply app_one_inv in T.
      * destruct (op_sem c (d_sh (e_d s)) o r) as [[[sh' new] enq] nt] eqn:Eo. injection Ed as <-. cbn in T. rewrite (op_starts c _ _ _ _ _ _ _ e Eo T) in Em.
        pose proof (to_main _ _ _ (ei_t _ _ _ _ _ I) _ e Em (or_introl eq_refl)). congruence.
    + destruct (nth_error (d_act (e_d s)) i) as [[|o rest]|] eqn:En; try discriminate. destruct (op_enabled (d_main (e_d s)) o); [|discriminate].
      destruct (op_sem c (d_sh (e_d s)) o r) as [[[sh' new] enq] nt] eqn:Eo. injection Ed as <-. cbn in T. rewrite (op_starts c _ _ _ _ _ _ _ e Eo T) in En.
      destruct (to_act _ _ _ (ei_t _ _ _ _ _ I) i _ e En (or_introl eq_refl)) as [F|(_ & w & Hw & A)]; [congruence|]. now exists w.
    + destruct (NP i eq_refl).
    + destruct (d_main (e_d s)); try discriminate. injection Ed as <-. cbn in T. now apply app_one_inv in T.
  - exfalso. destruct (existsb (fun t => memb t (els (c_g c))) (given1 l) || inside (e_who s) l); [discriminate|]. destruct (pool_step k (e_p s) l) as [| |p]; try discriminate.
    destruct (executes (e_p s) l) as [[w t]|]; [destruct (memb t (els (c_g c)))|]; try (injection E as <-; now apply app_one_inv in T).
    destruct (dstep c (e_d s) (LPick (index_of t (d_pool (e_d s))))) as [d|] eqn:Ed; [|discriminate]. injection E as <-. cbn [dstep] in Ed. destruct (Nat.ltb _ _); [|discriminate].
    destruct (nth_error _ _); [|discriminate]. injection Ed as <-. now apply app_one_inv in T.
Qed.
(** With stealing switched off it is that thread. *)
Theorem C108_own_partial : forall c k ls s l s' e,
  no_stealing k -> is_thread k (c_bind c e) ->
  erun c k (eng_new c) ls = Some s -> estep c k s l = Some s' ->
  trace (e_d s') = trace (e_d s) ++ [GStart e] ->
  starts_in s l = Some (Prim (Z.to_nat (c_bind c e))).
Proof.
  intros c k ls s l s' e NS IT R E T. unfold is_thread in IT. destruct (C108_bound_partial c k ls s l s' e R E T) as (w & Hw & O & _); [lia|]. rewrite Hw. f_equal.
  destruct (O IT) as (j & d & -> & Hj & Hd & D). f_equal. assert (d = 0) as ->.
  { destruct D as [D|D]; [exact D|]. destruct NS as [NS|NS]; [lia|]. rewrite NS in D. lia. }
  rewrite Nat.add_0_r, Nat.mod_small in Hd by exact Hj. exact Hd.
Qed.

(** The two models are used as they are: the actions of the engine are a history of the engine and the actions of the pool one of the pool, so
    that C06 to C09 and C40 hold of both together; the pool is given the elements that the engine gives, with their index. *)
Theorem C108_parts : forall c k ls s, erun c k (eng_new c) ls = Some s ->
  drun c (d_init c) (dyn_part c k (eng_new c) ls) = Some (e_d s)
  /\ pool_run k pool_new (pool_part c k (eng_new c) ls) = Some (e_p s)
  /\ (forall g t, In g (pool_part c k (eng_new c) ls) -> In t (given1 g) -> In t (els (c_g c)) -> exists b a, g = LSubmit t (c_bind c t) b a).
Proof.
  intros c k ls s R. pose proof (erun_inv c k ls [] [] _ _ (einv_new c k) R) as I. cbn [app] in I. split; [|split].
  - exact (ei_d _ _ _ _ _ I).
  - exact (ei_p _ _ _ _ _ I).
  - exact (ei_g _ _ _ _ _ I).
Qed.
(** Neither hinders the other: what others do with the pool and what its threads do is possible whenever the pool alone would do it, except that a
    thread inside the task of an element first does that. *)
Theorem C108_taken : forall c k ls s l p,
  erun c k (eng_new c) ls = Some s -> pool_step k (e_p s) l = Next p -> inside (e_who s) l = false ->
  (forall t, In t (given1 l) -> ~ In t (els (c_g c))) -> length (d_act (e_d s)) < c_workers c ->
  exists s', estep c k s (EPool l) = Some s' /\ e_p s' = p /\
    match executes (e_p s) l with Some (w, t) => In t (els (c_g c)) -> e_who s' = e_who s ++ [w] /\ d_act (e_d s') = d_act (e_d s) ++ [[OExec t]] | None => e_d s' = e_d s end.
Proof.
  intros c k ls s l p R E IN G W. pose proof (erun_inv c k ls [] [] _ _ (einv_new c k) R) as I. cbn [app] in I. cbn [estep].
  assert (X : existsb (fun t => memb t (els (c_g c))) (given1 l) = false).
  { destruct (existsb _ (given1 l)) eqn:X; trivial. apply existsb_exists in X as (t & Ht & Hm). apply memb_in in Hm. now destruct (G t Ht). }
  rewrite X, IN, E. cbn [orb]. destruct (executes (e_p s) l) as [[w t]|] eqn:Ex; [|eexists; split; [reflexivity|now split]].
  destruct (memb t (els (c_g c))) eqn:Em.
  - apply memb_in in Em. pose proof (taken c k _ _ s l p w t I E Ex Em) as TK. cbn [dstep]. rewrite (index_of_nth t _ TK). apply Nat.ltb_lt in W. rewrite W.
    eexists. split; [reflexivity|]. now split.
  - eexists. split; [reflexivity|]. split; [reflexivity|]. intros F. apply memb_in in F. congruence.
Qed.

(** A pipeline without dependencies is given to the pool in rows; an element of a row of several is executed by the thread with the number of the row,
    whatever it asks for. *)
Lemma row_calls_in p i t : forall row first g, In g (row_calls p i first row) -> In t (given1 g) -> gives_to i t g /\ In t row.
Proof.
  induction row as [|e r IH]; intros first g H Ht; [destruct H|]. destruct r as [|e2 r].
  - destruct H as [<-|[]]. destruct Ht as [<-|[]]. cbn. now repeat split; left.
  - change (row_calls p i first (e :: e2 :: r)) with (LTid p e (Z.of_nat i) first first :: row_calls p i false (e2 :: r)) in H. destruct H as [<-|H].
    + destruct Ht as [<-|[]]. split; [now split|now left].
    + destruct (IH false g H Ht) as [A B]. split; [exact A|now right].
Qed.
Lemma matrix_in bind p t : forall rows i0 g i row, In g (matrix_calls bind p i0 rows) -> In t (given1 g) ->
  nth_error rows i = Some row -> In t row -> 2 <= length row -> NoDup (concat rows) -> gives_to (i0 + i) t g.
Proof.
  assert (LOC : forall rows i0 g, In g (matrix_calls bind p i0 rows) -> In t (given1 g) -> In t (concat rows)).
  { induction rows as [|row rows IH]; intros i0 g H Ht; [destruct H|]. cbn [concat]. apply in_or_app.
    destruct row as [|a [|b row]]; cbn [matrix_calls] in H.
    - right. now apply (IH (S i0) g).
    - destruct H as [<-|H]; [left; exact Ht|right; now apply (IH (S i0) g)].
    - apply in_app_or in H as [H|H]; [left; now apply (row_calls_in p i0 t _ true g H)|right; now apply (IH (S i0) g)]. }
  induction rows as [|r0 rows IH]; intros i0 g i row H Ht N In1 L ND; [destruct H|]. cbn [concat] in ND. destruct i as [|i].
  - cbn in N. injection N as ->. rewrite Nat.add_0_r. destruct row as [|a [|b row]]; cbn [length] in L; try lia. cbn [matrix_calls] in H.
    apply in_app_or in H as [H|H]; [now apply (row_calls_in p i0 t _ true g H)|]. exfalso. apply (LOC _ _ _ H) in Ht. revert ND In1 Ht. clear. generalize (a :: b :: row) as q.
    induction q as [|x q IH]; cbn [app]; intros ND In1 Ht; [contradiction|]. inversion ND as [|z zs N1 N2]; subst. destruct In1 as [->|In1]; [apply N1; apply in_or_app; now right|now apply IH].
  - cbn [nth_error] in N. assert (In2 : In t (concat rows)) by (apply in_concat; exists row; split; [now apply nth_error_In in N|exact In1]).
    assert (NI : ~ In t r0). { intros F. revert ND F In2. clear. induction r0 as [|x q IH]; cbn [app]; intros ND F Ht; [contradiction|]. inversion ND as [|z zs N1 N2]; subst. destruct F as [->|F]; [apply N1; apply in_or_app; now right|now apply IH]. }
    assert (ND2 : NoDup (concat rows)). { revert ND. clear. induction r0 as [|x q IH]; cbn [app]; intros ND; [exact ND|]. inversion ND; subst. now apply IH. }
    rewrite Nat.add_succ_r, <- Nat.add_succ_l.
    destruct r0 as [|a [|b r0]]; cbn [matrix_calls] in H.
    + now apply (IH (S i0) g i row).
    + destruct H as [<-|H]; [destruct Ht as [<-|[]]; destruct NI; now left|now apply (IH (S i0) g i row)].
    + apply in_app_or in H as [H|H]; [destruct NI; now apply (row_calls_in p i0 t _ true g H)|now apply (IH (S i0) g i row)].
Qed.
Theorem C108_rows_refuted : forall k bind p rows h s l s' w t i row,
  no_stealing k -> nth_error rows i = Some row -> In t row -> 2 <= length row -> NoDup (concat rows) -> i < c_def k ->
  (forall g, In g h -> In t (given1 g) -> In g (matrix_calls bind p 0 rows)) ->
  pool_run k pool_new h = Some s -> pool_step k s l = Next s' -> executes s l = Some (w, t) ->
  w = Prim i /\ (is_thread k (bind t) -> bind t <> Z.of_nat i -> ~ obeys k (bind t) w).
Proof.
  intros k bind p rows h s l s' w t i row NS N In1 L ND Hi G R E X.
  assert (W : w = Prim i). { apply (C106_own k h s l s' w t i); trivial. intros g Hg Ht. now apply (matrix_in bind p t rows 0 g i row (G g Hg Ht)). }
  split; [exact W|]. intros IT D [O _]. destruct (O IT) as (j & d & Ew & Hj & Hd & DD). rewrite W in Ew. injection Ew as <-. assert (d = 0) as ->.
  { destruct DD as [DD|DD]; [exact DD|]. destruct NS as [NS|NS]; [lia|]. rewrite NS in DD. lia. }
  rewrite Nat.add_0_r, Nat.mod_small in Hd by exact Hi. unfold is_thread in IT. lia.
Qed.

(** Elements 0, and 1 before 2; element 0 is bound to thread 1 and element 1 to the secondary threads; two primary threads that do not steal; a stranger
    gives task 77 to thread 0. *)
Definition c108_c : dcfg := DynModel.mkCfg strag_g (fun e => if Nat.eqb e 0 then 1%Z else if Nat.eqb e 1 then (-101)%Z else (-1)%Z) 5 1.
Definition c108_M := EDyn (LMain st_default) false 0.
Definition c108_W i := EDyn (LWork i st_default) false 0.
Definition c108_P i := EPool (LPrim i true).
Definition c108_S i := EPool (LSec i true).
Definition c108_1 : list elabel :=
  [EPool LInit; EPool (LSubmit 77 0 false 0); EDyn LRun false 0; c108_M; c108_M; c108_M; c108_M; c108_M; c108_M;
   c108_P 0; c108_P 0; c108_P 1; c108_P 1; c108_P 1; c108_S 0; c108_S 0; c108_S 0; c108_S 0].
Example C108_nonvacuous :
  no_stealing c106_off /\ is_thread c106_off (c_bind c108_c 0)
  /\ (exists s s1 s2, erun c108_c c106_off (eng_new c108_c) c108_1 = Some s
        /\ estep c108_c c106_off s (c108_W 0) = Some s1 /\ trace (e_d s1) = trace (e_d s) ++ [GStart 0] /\ starts_in s (c108_W 0) = Some (Prim 1)
        /\ estep c108_c c106_off s (c108_W 1) = Some s2 /\ trace (e_d s2) = trace (e_d s) ++ [GStart 1] /\ starts_in s (c108_W 1) = Some (Sec 0)
        /\ inside (e_who s) (LPrim 0 true) = false /\ executes (e_p s) (LPrim 0 true) = Some (Prim 0, 77) /\ exists p, pool_step c106_off (e_p s) (LPrim 0 true) = Next p)
  /\ (exists s, pool_run c106_off pool_new (LInit :: matrix_calls (fun _ => 1%Z) 9 0 [[3; 4]; [5]] ++ [LPrim 0 true; LPrim 0 true]) = Some s
        /\ executes s (LPrim 0 true) = Some (Prim 0, 3) /\ ~ obeys c106_off 1 (Prim 0)).
Proof.
  split; [left; cbn; lia|]. split; [cbn; unfold is_thread; cbn; lia|]. split.
  - eexists. eexists. eexists. split; [vm_compute; reflexivity|]. split; [vm_compute; reflexivity|]. split; [reflexivity|]. split; [reflexivity|]. split; [vm_compute; reflexivity|].
    split; [reflexivity|]. split; [reflexivity|]. split; [reflexivity|]. split; [reflexivity|]. eexists. vm_compute. reflexivity.
  - eexists. split; [vm_compute; reflexivity|]. split; [reflexivity|]. intros [O _]. destruct O as (j & d & Ew & Hj & Hd & D); [unfold is_thread; cbn; lia|]. injection Ew as <-. cbn [c106_off c_range c_def] in *.
    assert (d = 0) as -> by (destruct D as [D|D]; [exact D|cbn in D; lia]). cbn in Hd. discriminate.
Qed.

Print Assumptions C108_bound_partial.
Print Assumptions C108_own_partial.
Print Assumptions C108_parts.
Print Assumptions C108_taken.
Print Assumptions C108_rows_refuted.
