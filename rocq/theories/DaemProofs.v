(** Proofs on daemons. *)
From Verif Require Import TimerProps.
From Verif Require Export DaemSpec.
From Coq Require Import Lia ZArith.
Local Open Scope nat_scope.
Local Open Scope list_scope.

Definition mover (l : tlabel) : Prop := match l with LtThread _ _ | LtTask _ _ _ => True | _ => False end.
Lemma thread_keeps t l t' : mover l -> timer_step t l = Some t' -> t_user t' = t_user t /\ t_stop t' = t_stop t.
Proof.
  intros A E. destruct l as [iv| | | |w o|sp ms th]; try destruct A; cbn [timer_step] in E;
    repeat match type of E with context [match ?x with _ => _ end] => destruct x; try discriminate end; injection E as <-; now split.
Qed.
Lemma start_does t iv t' : tinv t -> t_user t = UOut -> timer_step t (LtStart iv) = Some t' -> t_user t' = UOut /\ t_stop t' = false.
Proof.
  intros I U E. cbn [timer_step] in E. rewrite U in E. destruct (t_stop t) eqn:S; [|injection E as <-; now split]. destruct (t_pc t); try discriminate; injection E as <-; now split.
Qed.
Lemma stop_does t t' : t_user t = UOut -> timer_step t LtStop = Some t' -> t_stop t' = true /\ (t_stop t = true -> t' = t) /\ (t_stop t = false -> t_user t' = UNotify).
Proof. intros U E. cbn [timer_step] in E. rewrite U in E. destruct (t_stop t) eqn:S; injection E as <-; cbn; (split; [easy|]); split; congruence. Qed.
Lemma notify_does t t' : timer_step t LtNotify = Some t' -> t_user t = UNotify /\ t_user t' = UJoin /\ t_stop t' = t_stop t.
Proof. intros E. cbn [timer_step] in E. destruct (t_user t) eqn:U; try discriminate. injection E as <-. now split. Qed.
Lemma join_does t t' : timer_step t LtJoin = Some t' -> t_user t = UJoin /\ t_user t' = UOut /\ t_stop t' = t_stop t.
Proof. intros E. cbn [timer_step] in E. destruct (t_user t) eqn:U; try discriminate. destruct (t_pc t); try discriminate; injection E as <-; now split. Qed.

(** * The invariant *)
(** Whether the timer of daemon [k] is to be stopped; whether the user is in its stop. *)
Definition want (s : dst) (k : nat) : bool :=
  let w := negb (working (d_log s)) in
  match d_main s with
  | DOut => w
  | DStarting j _ => if k <? j then false else w
  | DStopping j _ | DDeleting j | DDelStop j => if k <? j then true else w
  | DStopWait j _ | DDelWait j => if k <=? j then true else w
  | DGone => true
  end.
Definition inside (s : dst) (k : nat) : bool := match d_main s with DStopWait j _ | DDelWait j => k =? j | _ => false end.
Definition dying (s : dst) : bool := match d_main s with DDeleting _ | DDelStop _ | DDelWait _ | DGone => true | _ => false end.
Record dinv (n : nat) (s : dst) : Prop := {
  di_t : forall k, exists ls, timer_run timer_new ls = Some (d_ts s k);
  di_s : forall k, k < n -> t_stop (d_ts s k) = want s k;
  di_u : forall k, k < n -> (inside s k = true <-> t_user (d_ts s k) <> UOut);
  di_n : match d_main s with DStopWait j _ | DDelWait j | DDelStop j => j < n | _ => True end;
  di_d : forall k, d_dead s k = true -> dying s = true;
  di_i : d_init s = initialised (d_log s);
  di_m : match d_main s with DStarting _ _ => d_init s = false | DStopping _ _ | DStopWait _ _ => d_init s = true | _ => True end }.

Lemma timer_run_app ls ls' : forall t t' t'', timer_run t ls = Some t' -> timer_run t' ls' = Some t'' -> timer_run t (ls ++ ls') = Some t''.
Proof. induction ls as [|l ls IH]; intros t t' t'' E E'; cbn in *; [now injection E as <-|]. destruct (timer_step t l); [|discriminate]. now apply IH with t'. Qed.
Lemma run_one t l t' : timer_step t l = Some t' -> timer_run t [l] = Some t'.
Proof. intros E. cbn. now rewrite E. Qed.
Lemma di_inv n s k : dinv n s -> tinv (d_ts s k).
Proof. intros D. destruct (di_t _ _ D k) as [ls E]. apply (tinv_run ls _ _ tinv_new E). Qed.
Lemma upd_run s m k t l : (forall k, exists ls, timer_run timer_new ls = Some (d_ts s k)) -> timer_step (d_ts s k) l = Some t -> forall j, exists ls, timer_run timer_new ls = Some (d_ts (set_t s m k t) j).
Proof.
  intros H E j. cbn [set_t d_ts]. unfold upd. destruct (Nat.eqb_spec j k) as [->|N]; [|apply H]. destruct (H k) as [ls R]. exists (ls ++ [l]). eapply timer_run_app; [exact R|]. now apply run_one.
Qed.
Lemma dinv_new n : dinv n dst_new.
Proof. split; cbn; try easy. intros k. now exists []. Qed.

Ltac cases := repeat match goal with |- context [?a <? ?b] => destruct (Nat.ltb_spec a b) | |- context [?a <=? ?b] => destruct (Nat.leb_spec a b) | |- context [?a =? ?b] => destruct (Nat.eqb_spec a b) end.
(** An action on one timer. *)
Lemma act_inv n s k l m t : dinv n s -> k < n -> timer_step (d_ts s k) l = Some t ->
  t_stop t = want (at_ s m) k -> (inside (at_ s m) k = true <-> t_user t <> UOut) ->
  (forall j, j < n -> j <> k -> want (at_ s m) j = want s j /\ inside (at_ s m) j = inside s j) ->
  match m with DStopWait j _ | DDelWait j | DDelStop j => j < n | _ => True end -> (dying s = true -> dying (at_ s m) = true) ->
  match m with DStarting _ _ => d_init s = false | DStopping _ _ | DStopWait _ _ => d_init s = true | _ => True end -> dinv n (set_t s m k t).
Proof.
  intros D K E W U O N Dy M. split.
  - eapply upd_run; [apply (di_t _ _ D)|exact E].
  - intros j J. change (want (set_t s m k t) j) with (want (at_ s m) j). cbn [set_t d_ts]. unfold upd. destruct (Nat.eqb_spec j k) as [->|Nj]; [exact W|]. rewrite (proj1 (O j J Nj)). now apply (di_s _ _ D).
  - intros j J. change (inside (set_t s m k t) j) with (inside (at_ s m) j). cbn [set_t d_ts]. unfold upd. destruct (Nat.eqb_spec j k) as [->|Nj]; [exact U|]. rewrite (proj2 (O j J Nj)). now apply (di_u _ _ D).
  - exact N.
  - intros j Hj. change (dying (set_t s m k t)) with (dying (at_ s m)). apply Dy. now apply (di_d _ _ D) with j.
  - apply (di_i _ _ D).
  - exact M.
Qed.
Lemma thread_inv n s k l t : dinv n s -> k < n -> mover l -> timer_step (d_ts s k) l = Some t -> dinv n (set_t s (d_main s) k t).
Proof.
  intros D K A E. destruct (thread_keeps _ _ _ A E) as [U S]. assert (X : at_ s (d_main s) = s) by now destruct s. apply act_inv with (l := l); try rewrite X; auto.
  - rewrite S. now apply (di_s _ _ D).
  - rewrite U. now apply (di_u _ _ D).
  - apply (di_n _ _ D).
  - apply (di_m _ _ D).
Qed.
(** A call that returns, or begins. *)
Lemma move_inv n s s' : dinv n s -> d_ts s' = d_ts s -> (forall k, k < n -> want s' k = want s k) -> (forall k, k < n -> inside s' k = inside s k) ->
  match d_main s' with DStopWait j _ | DDelWait j | DDelStop j => j < n | _ => True end -> (forall k, d_dead s' k = true -> dying s' = true) -> d_init s' = initialised (d_log s') ->
  match d_main s' with DStarting _ _ => d_init s' = false | DStopping _ _ | DStopWait _ _ => d_init s' = true | _ => True end -> dinv n s'.
Proof.
  intros D T W I N Dd Di M. split; rewrite ?T; auto; try apply (di_t _ _ D).
  - intros k K. rewrite W by exact K. now apply (di_s _ _ D).
  - intros k K. rewrite I by exact K. now apply (di_u _ _ D).
Qed.
Lemma not_inside n s k : dinv n s -> k < n -> inside s k = false -> t_user (d_ts s k) = UOut.
Proof. intros D K I. destruct (t_user (d_ts s k)) eqn:U; [reflexivity|..]; exfalso; assert (Q : inside s k = true) by (apply (di_u _ _ D k K); congruence); congruence. Qed.
Lemma is_inside n s k : dinv n s -> k < n -> inside s k = true -> t_user (d_ts s k) <> UOut.
Proof. intros D K I. now apply (di_u _ _ D k K). Qed.
Lemma none_dead n s : dinv n s -> dying s = false -> forall k, d_dead s k = true -> False.
Proof. intros D Y k Hk. rewrite (di_d _ _ D k Hk) in Y. discriminate. Qed.

Ltac look M := intros; unfold want, inside, dying, returned; cbn [at_ d_main d_log d_init d_ts d_dead working initialised]; rewrite ?M; cases; try lia; try reflexivity; auto.
Lemma thread_to n s k l s' : thread n s k l = DTo s' -> k < n /\ exists t, timer_step (d_ts s k) l = Some t /\ s' = set_t s (d_main s) k t.
Proof.
  unfold thread. destruct (Nat.ltb_spec k n) as [K|K]; [|discriminate]. destruct (timer_step (d_ts s k) l) as [t|]; [|discriminate]. intros E. split; [exact K|]. exists t. split; [reflexivity|]. destruct (t_pc t); try (now injection E as <-). destruct (d_dead s k); [discriminate E|now injection E as <-].
Qed.
Lemma dstep_inv n iv s l s' : dinv n s -> dstep n iv s l = DTo s' -> dinv n s'.
Proof.
  intros D E. assert (Di := di_i _ _ D). assert (Dm := di_m _ _ D). assert (Dn := di_n _ _ D). destruct l as [early late|early late| | |k w o|k sp ms th]; cbn [dstep] in E.
  - destruct (d_main s) eqn:M; try discriminate E. assert (Dd := none_dead _ _ D ltac:(unfold dying; now rewrite M)).
    destruct (d_init s) eqn:Ii; [|destruct early]; injection E as <-; (apply move_inv with (s := s); [exact D|reflexivity|look M|look M|exact I| |cbn; congruence|]); try (intros k Hk; exfalso; now apply Dd with k); try exact I. exact Ii.
  - destruct (d_main s) eqn:M; try discriminate E. assert (Dd := none_dead _ _ D ltac:(unfold dying; now rewrite M)).
    destruct (d_init s) eqn:Ii; cbn [negb] in E; [destruct early|]; injection E as <-; (apply move_inv with (s := s); [exact D|reflexivity|look M|look M|exact I| |cbn; congruence|]); try (intros k Hk; exfalso; now apply Dd with k); try exact I. exact Ii.
  - destruct (d_main s) eqn:M; try discriminate E. injection E as <-. apply move_inv with (s := s); [exact D|reflexivity|look M|look M|exact I|reflexivity|exact Di|exact I].
  - destruct (d_main s) as [|j v|j v|j v|j|j|j|] eqn:M; try discriminate E.
    + assert (Dd := none_dead _ _ D ltac:(unfold dying; now rewrite M)). destruct (Nat.ltb_spec j n) as [J|J].
      * unfold act in E. destruct (timer_step (d_ts s j) (LtStart (iv j))) as [t|] eqn:T; [|discriminate E]. injection E as <-.
        assert (U : t_user (d_ts s j) = UOut) by (apply not_inside with n; auto; unfold inside; now rewrite M). destruct (start_does _ _ _ (di_inv n s j D) U T) as [U' S'].
        apply act_inv with (l := LtStart (iv j)); auto; try exact I; try (now (look M)); try (rewrite U'; cbn; now split); try (intros i Hi Ni; split; look M); try (unfold dying; rewrite M; discriminate).
      * injection E as <-. apply move_inv with (s := s); [exact D|reflexivity|look M|look M|exact I| | |exact I]; [intros k Hk; exfalso; now apply Dd with k|]. cbn. destruct v; congruence.
    + assert (Dd := none_dead _ _ D ltac:(unfold dying; now rewrite M)). destruct (Nat.ltb_spec j n) as [J|J].
      * unfold act in E. destruct (timer_step (d_ts s j) LtStop) as [t|] eqn:T; [|discriminate E]. injection E as <-.
        assert (U : t_user (d_ts s j) = UOut) by (apply not_inside with n; auto; unfold inside; now rewrite M). destruct (stop_does _ _ U T) as (S' & A & B).
        apply act_inv with (l := LtStop); auto; destruct (t_user t) eqn:U'; auto; try (now (look M)); try (now (cbn; rewrite ?Nat.eqb_refl; split)); try (intros i Hi Ni; split; look M); try (unfold dying; rewrite M; discriminate).
      * injection E as <-. apply move_inv with (s := s); [exact D|reflexivity|look M|look M|exact I| | |exact I]; [intros k Hk; exfalso; now apply Dd with k|]. cbn. destruct v; cbn; congruence.
    + assert (In : t_user (d_ts s j) <> UOut) by (apply is_inside with n; auto; unfold inside; rewrite M; apply Nat.eqb_refl). assert (Sj : t_stop (d_ts s j) = true) by (rewrite (di_s _ _ D j Dn); look M).
      destruct (t_user (d_ts s j)) eqn:U; [congruence|..]; unfold act in E; (destruct (timer_step (d_ts s j) _) as [t|] eqn:T in E; [|discriminate E]); injection E as <-.
      * destruct (notify_does _ _ T) as (_ & U' & S'). apply act_inv with (l := LtNotify); auto; rewrite ?S', ?U', ?Sj; try (now (look M)); try (cbn; now rewrite Nat.eqb_refl); try (intros i Hi Ni; split; look M); try (unfold dying; rewrite M; discriminate).
      * destruct (join_does _ _ T) as (_ & U' & S'). apply act_inv with (l := LtJoin); auto; rewrite ?S', ?U', ?Sj; try (now (look M)); try (cbn; now split); try (intros i Hi Ni; split; look M); try exact I. unfold dying; rewrite M; discriminate.
    + destruct (Nat.ltb_spec j n) as [J|J].
      * destruct (t_pc (d_ts s j)); try discriminate E; injection E as <-; (apply move_inv with (s := s); [exact D|reflexivity|look M|look M|exact J|reflexivity|exact Di|exact I]).
      * injection E as <-. apply move_inv with (s := s); [exact D|reflexivity|look M|look M|exact I|reflexivity|exact Di|exact I].
    + unfold act in E. destruct (timer_step (d_ts s j) LtStop) as [t|] eqn:T; [|discriminate E]. injection E as <-.
      assert (U : t_user (d_ts s j) = UOut) by (apply not_inside with n; auto; unfold inside; now rewrite M). destruct (stop_does _ _ U T) as (S' & A & B).
      apply act_inv with (l := LtStop); auto; destruct (t_user t) eqn:U'; auto; try (now (look M)); try (now (cbn; rewrite ?Nat.eqb_refl; split)); try (intros i Hi Ni; split; look M).
    + assert (In : t_user (d_ts s j) <> UOut) by (apply is_inside with n; auto; unfold inside; rewrite M; apply Nat.eqb_refl). assert (Sj : t_stop (d_ts s j) = true) by (rewrite (di_s _ _ D j Dn); look M).
      destruct (t_user (d_ts s j)) eqn:U; [congruence|..]; unfold act in E; (destruct (timer_step (d_ts s j) _) as [t|] eqn:T in E; [|discriminate E]); injection E as <-.
      * destruct (notify_does _ _ T) as (_ & U' & S'). apply act_inv with (l := LtNotify); auto; rewrite ?S', ?U', ?Sj; try (now (look M)); try (cbn; now rewrite Nat.eqb_refl); try (intros i Hi Ni; split; look M); try (unfold dying; rewrite M; discriminate).
      * destruct (join_does _ _ T) as (_ & U' & S'). apply act_inv with (l := LtJoin); auto; rewrite ?S', ?U', ?Sj; try (now (look M)); try (cbn; now split); try (intros i Hi Ni; split; look M); try exact I.
  - apply thread_to in E as (K & t & T & ->). exact (thread_inv n s k _ t D K (I : mover (LtThread w o)) T).
  - apply thread_to in E as (K & t & T & ->). exact (thread_inv n s k _ t D K (I : mover (LtTask sp ms th)) T).
Qed.
Lemma drun_inv n iv ls : forall s s', dinv n s -> drun n iv s ls = DTo s' -> dinv n s'.
Proof. induction ls as [|l ls IH]; intros s s' D E; cbn [drun] in E; [now injection E as <-|]. destruct (dstep n iv s l) as [s1| |] eqn:E1; try discriminate. apply (IH s1); [|exact E]. eapply dstep_inv; eauto. Qed.
Lemma drun_app n iv ls ls' : forall s s', drun n iv s ls = DTo s' -> drun n iv s (ls ++ ls') = drun n iv s' ls'.
Proof. induction ls as [|l ls IH]; intros s s' E; cbn [drun app] in *; [now injection E as <-|]. destruct (dstep n iv s l) as [s1| |]; try discriminate. now apply IH. Qed.

(** * Moves of one thread *)
Definition lab (k : nat) (l : tlabel) : dlab := match l with LtTask sp ms th => DlTask k sp ms th | LtThread w o => DlThread k w o | _ => DlNext end.
Lemma lift n iv k ms : forall s t, k < n -> d_dead s k = false -> timer_run (d_ts s k) ms = Some t -> (forall l, In l ms -> mover l) ->
  exists s', drun n iv s (map (lab k) ms) = DTo s' /\ d_ts s' k = t /\ (forall j, j <> k -> d_ts s' j = d_ts s j) /\ d_main s' = d_main s /\ d_dead s' = d_dead s /\ d_init s' = d_init s /\ d_log s' = d_log s.
Proof.
  induction ms as [|l ms IH]; intros s t K Dd E Mv.
  - exists s. injection E as <-. repeat split; reflexivity.
  - cbn [timer_run] in E. destruct (timer_step (d_ts s k) l) as [t1|] eqn:T; [|discriminate E]. set (s1 := set_t s (d_main s) k t1).
    assert (X : dstep n iv s (lab k l) = DTo s1).
    { assert (Ml := Mv l (or_introl eq_refl)). destruct l; try destruct Ml; cbn [lab dstep]; unfold thread; (destruct (Nat.ltb_spec k n); [|lia]); rewrite T, Dd; now destruct (t_pc t1). }
    destruct (IH s1 t K Dd) as (s' & R & A & B & C & F & G & H).
    + cbn [s1 set_t d_ts]. unfold upd. now rewrite Nat.eqb_refl.
    + intros x Hx. apply Mv. now right.
    + exists s'. split; [cbn [map drun]; now rewrite X|]. split; [exact A|]. split; [|now repeat split].
      intros j J. rewrite (B j J). cbn [s1 set_t d_ts]. unfold upd. now destruct (Nat.eqb_spec j k).
Qed.
(** A thread that is asked to stop comes to its end. *)
Lemma finish t : t_stop t = true -> t_pc t <> TNone -> exists ms t', timer_run t ms = Some t' /\ (forall l, In l ms -> mover l) /\ (t_pc t' = TEnd \/ t_pc t' = TThrew) /\ t_user t' = t_user t /\ t_stop t' = true.
Proof.
  destruct t as [st o lf pc u lg]. cbn [t_stop t_pc t_user]. intros -> P. destruct pc as [| | |w| | | |]; try congruence.
  - exists [LtThread false false]. eexists. split; [reflexivity|]. split; [intros l Hl; cbn in Hl; repeat destruct Hl as [<-|Hl]; easy|]. cbn. auto.
  - exists [LtThread false false; LtThread false true; LtThread false false; LtThread false false]. eexists. split; [reflexivity|]. split; [intros l Hl; cbn in Hl; repeat destruct Hl as [<-|Hl]; easy|]. cbn. auto.
  - exists [LtThread false true; LtThread false false; LtThread false false]. eexists. split; [reflexivity|]. split; [intros l Hl; cbn in Hl; repeat destruct Hl as [<-|Hl]; easy|]. cbn. auto.
  - exists [LtThread false false; LtThread false false]. eexists. split; [reflexivity|]. split; [intros l Hl; cbn in Hl; repeat destruct Hl as [<-|Hl]; easy|]. cbn. auto.
  - exists [LtTask 0 0 false; LtThread false false]. eexists. split; [reflexivity|]. split; [intros l Hl; cbn in Hl; repeat destruct Hl as [<-|Hl]; easy|]. cbn. auto.
  - exists []. eexists. split; [reflexivity|]. split; [easy|]. cbn. auto.
  - exists []. eexists. split; [reflexivity|]. split; [easy|]. cbn. auto.
Qed.
(** A thread that is not asked to stop comes to its next shot. *)
Lemma shoot t : tinv t -> t_stop t = false -> t_pc t <> TThrew -> exists ms t', timer_run t ms = Some t' /\ length ms <= 5 /\ (forall l, In l ms -> mover l) /\ t_pc t' = TShot /\ shots (t_log t') = S (shots (t_log t)).
Proof.
  intros I S P. assert (Ie := ti_e _ I). destruct t as [st o lf pc u lg]. cbn [t_stop t_pc t_user] in *. subst st. destruct pc as [| | |w| | | |]; try congruence; [specialize (Ie (or_introl eq_refl)); discriminate| | | | | |specialize (Ie (or_intror eq_refl)); discriminate].
  - exists [LtThread false false; LtThread false false; LtThread false true; LtThread false false]. eexists. split; [reflexivity|]. split; [cbn; lia|]. split; [intros l Hl; cbn in Hl; repeat destruct Hl as [<-|Hl]; easy|]. now split.
  - exists [LtThread false false; LtThread false true; LtThread false false]. eexists. split; [reflexivity|]. split; [cbn; lia|]. split; [intros l Hl; cbn in Hl; repeat destruct Hl as [<-|Hl]; easy|]. now split.
  - exists [LtThread false true; LtThread false false]. eexists. split; [reflexivity|]. split; [cbn; lia|]. split; [intros l Hl; cbn in Hl; repeat destruct Hl as [<-|Hl]; easy|]. now split.
  - exists [LtThread false false]. eexists. split; [reflexivity|]. split; [cbn; lia|]. split; [intros l Hl; cbn in Hl; repeat destruct Hl as [<-|Hl]; easy|]. now split.
  - exists [LtTask 0 0 false; LtThread false false; LtThread false false; LtThread false true; LtThread false false]. eexists. split; [reflexivity|]. split; [cbn; lia|]. split; [intros l Hl; cbn in Hl; repeat destruct Hl as [<-|Hl]; easy|]. now split.
Qed.

(** * Ended threads *)
Lemma stopped_ended n s k : dinv n s -> k < n -> want s k = true -> inside s k = false -> ended (d_ts s k).
Proof. intros D K W I. apply (proj1 (ti_u _ (di_inv n s k D))); [now apply not_inside with n|]. now rewrite (di_s _ _ D k K). Qed.
Lemma ended_still t l : ended t -> mover l -> timer_step t l = None.
Proof. intros [E|[E|E]] Ml; destruct l; try destruct Ml; cbn [timer_step]; now rewrite E. Qed.

(** * With care nothing is touched after its deletion *)
Lemma care_inv n iv s : with_care n iv s -> dinv n s /\ (dying s = true -> working (d_log s) = false).
Proof.
  induction 1 as [|s l s' W [D C] L E]; [split; [apply dinv_new|discriminate]|]. split; [eapply dstep_inv; eauto|]. intros Y.
  destruct l as [early late|early late| | |k w o|k sp ms th]; cbn [dstep] in E.
  - destruct (d_main s); try discriminate E. destruct (d_init s); [|destruct early]; injection E as <-; discriminate Y.
  - destruct (d_main s); try discriminate E. destruct (negb (d_init s)); [|destruct early]; injection E as <-; discriminate Y.
  - destruct (d_main s); try discriminate E. injection E as <-. cbn. auto.
  - unfold dying in C. unfold act in E. destruct (d_main s) as [|j v|j v|j v|j|j|j|] eqn:M; try discriminate E; try specialize (C eq_refl).
    + destruct (j <? n); [destruct (timer_step _ _); [|discriminate E]|]; injection E as <-; discriminate Y.
    + destruct (j <? n); [destruct (timer_step _ _) as [t|]; [|discriminate E]|]; injection E as <-; cbn in Y; [|discriminate Y]. unfold dying in Y. cbn in Y. destruct (t_user t); discriminate Y.
    + destruct (t_user (d_ts s j)); (destruct (timer_step _ _) as [t|]; [|discriminate E]); injection E as <-; discriminate Y.
    + destruct (j <? n); [destruct (t_pc _); try discriminate E|]; injection E as <-; exact C.
    + destruct (timer_step _ _) as [t|]; [|discriminate E]. injection E as <-. exact C.
    + destruct (t_user (d_ts s j)); (destruct (timer_step _ _) as [t|]; [|discriminate E]); injection E as <-; exact C.
  - apply thread_to in E as (K & t & T & ->). now apply C.
  - apply thread_to in E as (K & t & T & ->). now apply C.
Qed.
Lemma care_want n iv s k : with_care n iv s -> dying s = true -> want s k = true.
Proof.
  intros W Y. destruct (care_inv _ _ _ W) as [D C]. specialize (C Y). unfold want. rewrite C. unfold dying in Y. destruct (d_main s); try discriminate Y; cases; reflexivity.
Qed.
Lemma care_out n iv s k : with_care n iv s -> dying s = true -> k < n -> t_user (d_ts s k) = UOut.
Proof.
  intros W. revert k. induction W as [|s l s' W IH L E]; [discriminate|]. intros k Y K.
  destruct l as [early late|early late| | |i w o|i sp ms th]; cbn [dstep] in E.
  - destruct (d_main s); try discriminate E. destruct (d_init s); [|destruct early]; injection E as <-; discriminate Y.
  - destruct (d_main s); try discriminate E. destruct (negb (d_init s)); [|destruct early]; injection E as <-; discriminate Y.
  - destruct (d_main s) eqn:M; try discriminate E. injection E as <-. cbn. apply not_inside with n; [apply (care_inv _ _ _ W)|exact K|]. unfold inside. now rewrite M.
  - unfold act in E. assert (IH' := IH k). unfold dying in IH'. assert (Wa := care_want n iv s k W). unfold dying in Wa. destruct (d_main s) as [|j v|j v|j v|j|j|j|] eqn:M; try discriminate E; try specialize (IH' eq_refl); try specialize (Wa eq_refl).
    + destruct (j <? n); [destruct (timer_step _ _); [|discriminate E]|]; injection E as <-; discriminate Y.
    + destruct (j <? n); [destruct (timer_step _ _) as [t|]; [|discriminate E]|]; injection E as <-; cbn in Y; [|discriminate Y]. unfold dying in Y. cbn in Y. destruct (t_user t); discriminate Y.
    + destruct (t_user (d_ts s j)); (destruct (timer_step _ _) as [t|]; [|discriminate E]); injection E as <-; discriminate Y.
    + destruct (j <? n); [destruct (t_pc _); try discriminate E|]; injection E as <-; now apply IH'.
    + destruct (timer_step (d_ts s j) LtStop) as [t|] eqn:T; [|discriminate E]. injection E as <-. cbn [set_t d_ts]. unfold upd. destruct (Nat.eqb_spec k j) as [->|N]; [|now apply IH']. destruct (stop_does _ _ (IH' K) T) as (_ & A & _).
      rewrite A; [now apply IH'|]. rewrite (di_s _ _ (proj1 (care_inv _ _ _ W)) j K). exact Wa.
    + exfalso. destruct (care_inv _ _ _ W) as [D _]. assert (J := di_n _ _ D). rewrite M in J. assert (Q := is_inside n s j D J). unfold inside in Q. rewrite M, Nat.eqb_refl in Q. apply (Q eq_refl). apply IH; [unfold dying; now rewrite M|exact J].
  - apply thread_to in E as (Ki & t & T & ->). cbn [set_t d_ts]. unfold upd. destruct (Nat.eqb_spec k i) as [->|N]; [rewrite (proj1 (thread_keeps _ _ _ (I : mover (LtThread w o)) T))|]; now apply IH.
  - apply thread_to in E as (Ki & t & T & ->). cbn [set_t d_ts]. unfold upd. destruct (Nat.eqb_spec k i) as [->|N]; [rewrite (proj1 (thread_keeps _ _ _ (I : mover (LtTask sp ms th)) T))|]; now apply IH.
Qed.
Lemma care_ended n iv s k : with_care n iv s -> dying s = true -> k < n -> ended (d_ts s k).
Proof.
  intros W Y K. destruct (care_inv _ _ _ W) as [D _]. apply (proj1 (ti_u _ (di_inv n s k D))); [now apply care_out with n iv|]. rewrite (di_s _ _ D k K). now apply care_want with n iv.
Qed.

(** * Calls return *)
Definition done (n : nat) (iv : nat -> Z) (s : dst) (m : dphase) (c : dcall) : Prop := exists ls s', drun n iv s ls = DTo s' /\ d_main s' = m /\ d_log s' = c :: d_log s.
Lemma done_step n iv s l s' m c : dstep n iv s l = DTo s' -> d_log s' = d_log s -> done n iv s' m c -> done n iv s m c.
Proof. intros E L (ls & s2 & R & M & Q). exists (l :: ls), s2. split; [cbn [drun]; now rewrite E|]. split; [exact M|]. now rewrite Q, L. Qed.
Lemma done_run n iv s ls s' m c : drun n iv s ls = DTo s' -> d_log s' = d_log s -> done n iv s' m c -> done n iv s m c.
Proof. intros E L (ls' & s2 & R & M & Q). exists (ls ++ ls'), s2. split; [now rewrite (drun_app _ _ _ _ _ _ E)|]. split; [exact M|]. now rewrite Q, L. Qed.
Lemma starts n iv d : forall s k v, n - k = d -> dinv n s -> d_main s = DStarting k v -> done n iv s DOut (CInit v).
Proof.
  induction d as [|d IH]; intros s k v Hd D M.
  - exists [DlNext]. eexists. split; [cbn [drun dstep]; rewrite M; destruct (Nat.ltb_spec k n); [lia|]; reflexivity|]. now split.
  - assert (K : k < n) by lia. assert (U := not_inside n s k D K ltac:(unfold inside; now rewrite M)).
    assert (E : exists t, timer_step (d_ts s k) (LtStart (iv k)) = Some t). { cbn [timer_step]. rewrite U. destruct (t_stop (d_ts s k)) eqn:S; [|eauto]. destruct (proj1 (ti_u _ (di_inv n s k D)) U S) as [->|[->| ->]]; eauto. }
    destruct E as [t E]. assert (X : dstep n iv s DlNext = DTo (set_t s (DStarting (S k) v) k t)) by (cbn [dstep]; rewrite M; destruct (Nat.ltb_spec k n); [|lia]; unfold act; now rewrite E).
    eapply done_step; [exact X|reflexivity|]. apply IH with (k := S k); [lia|now apply (dstep_inv _ _ _ _ _ D X)|reflexivity].
Qed.
Lemma join_ready t : t_user t = UJoin -> t_pc t = TEnd \/ t_pc t = TThrew -> exists t', timer_step t LtJoin = Some t'.
Proof. intros U [P|P]; cbn [timer_step]; rewrite U, P; eauto. Qed.
(** In the stop of daemon [k] of a destroy. *)
Lemma waits n iv s k v : dinv n s -> d_main s = DStopWait k v -> exists ls s', drun n iv s ls = DTo s' /\ d_main s' = DStopping (S k) v /\ d_log s' = d_log s.
Proof.
  intros D M. assert (K := di_n _ _ D). rewrite M in K.
  assert (G : forall z, dinv n z -> d_main z = DStopWait k v -> t_user (d_ts z k) = UJoin -> exists ls s', drun n iv z ls = DTo s' /\ d_main s' = DStopping (S k) v /\ d_log s' = d_log z).
  { intros z Dz Mz Uz. destruct (proj2 (ti_u _ (di_inv n z k Dz)) ltac:(congruence)) as [S P]. destruct (finish _ S P) as (ms & t & R & Mv & Pt & Ut & _). assert (Dd : d_dead z k = false). { destruct (d_dead z k) eqn:Q; [|reflexivity]. exfalso. apply (none_dead n z Dz) with k; [unfold dying; now rewrite Mz|exact Q]. }
    destruct (lift n iv k ms z t K Dd R Mv) as (z' & Rz & Tz & _ & Mz' & _ & _ & Lz). destruct (join_ready t) as [t' J]; [congruence|exact Pt|].
    exists (map (lab k) ms ++ [DlNext]). eexists. split; [rewrite (drun_app _ _ _ _ _ _ Rz); cbn [drun dstep]; rewrite Mz', Mz, Tz, Ut, Uz; unfold act; rewrite Tz, J; reflexivity|]. cbn. now split. }
  assert (In := is_inside n s k D K ltac:(unfold inside; rewrite M; apply Nat.eqb_refl)). destruct (t_user (d_ts s k)) eqn:U; [congruence| |now apply G].
  assert (E : exists t, timer_step (d_ts s k) LtNotify = Some t) by (cbn [timer_step]; rewrite U; eauto). destruct E as [t E].
  assert (X : dstep n iv s DlNext = DTo (set_t s (DStopWait k v) k t)) by (cbn [dstep]; rewrite M, U; unfold act; now rewrite E).
  destruct (G _ (dstep_inv _ _ _ _ _ D X) eq_refl) as (ls & s' & R & Q1 & Q2). { cbn [set_t d_ts]. unfold upd. rewrite Nat.eqb_refl. now destruct (notify_does _ _ E) as (_ & -> & _). }
  exists (DlNext :: ls), s'. split; [cbn [drun]; now rewrite X|]. now split.
Qed.
Lemma stops n iv d : forall s k v, n - k = d -> dinv n s -> d_main s = DStopping k v -> done n iv s DOut (CDestroy v).
Proof.
  induction d as [|d IH]; intros s k v Hd D M.
  - exists [DlNext]. eexists. split; [cbn [drun dstep]; rewrite M; destruct (Nat.ltb_spec k n); [lia|]; reflexivity|]. now split.
  - assert (K : k < n) by lia. assert (U := not_inside n s k D K ltac:(unfold inside; now rewrite M)).
    assert (E : exists t, timer_step (d_ts s k) LtStop = Some t) by (cbn [timer_step]; rewrite U; destruct (t_stop (d_ts s k)); eauto).
    destruct E as [t E]. assert (X : dstep n iv s DlNext = DTo (set_t s (match t_user t with UOut => DStopping (S k) v | _ => DStopWait k v end) k t)) by (cbn [dstep]; rewrite M; destruct (Nat.ltb_spec k n); [|lia]; unfold act; now rewrite E).
    assert (D' := dstep_inv _ _ _ _ _ D X). eapply done_step; [exact X|reflexivity|]. destruct (t_user t).
    + apply IH with (k := S k); [lia|exact D'|reflexivity].
    + destruct (waits n iv _ k v D' eq_refl) as (ls & s' & R & Q1 & Q2). eapply done_run; [exact R|exact Q2|]. apply IH with (k := S k); [lia|exact (drun_inv _ _ _ _ _ D' R)|exact Q1].
    + destruct (waits n iv _ k v D' eq_refl) as (ls & s' & R & Q1 & Q2). eapply done_run; [exact R|exact Q2|]. apply IH with (k := S k); [lia|exact (drun_inv _ _ _ _ _ D' R)|exact Q1].
Qed.
Lemma deletes n iv d : forall s k, n - k = d -> with_care n iv s -> d_main s = DDeleting k -> done n iv s DGone CDelete.
Proof.
  induction d as [|d IH]; intros s k Hd W M.
  - exists [DlNext]. eexists. split; [cbn [drun dstep]; rewrite M; destruct (Nat.ltb_spec k n); [lia|]; reflexivity|]. now split.
  - assert (K : k < n) by lia. assert (Y : dying s = true) by (unfold dying; now rewrite M). assert (En := care_ended n iv s k W Y K).
    assert (X : dstep n iv s DlNext = DTo (mkDs (d_init s) (DDelStop k) (d_ts s) (upd (d_dead s) k true) (d_log s))) by (cbn [dstep]; rewrite M; destruct (Nat.ltb_spec k n); [|lia]; destruct En as [->|[->| ->]]; reflexivity).
    eapply done_step; [exact X|reflexivity|]. assert (W' := wc_step n iv s DlNext _ W ltac:(discriminate) X). set (s1 := mkDs _ _ _ _ _) in *.
    assert (U := care_out n iv s1 k W' eq_refl K). assert (S := di_s _ _ (proj1 (care_inv _ _ _ W')) k K). rewrite (care_want n iv s1 k W' eq_refl) in S.
    assert (X2 : dstep n iv s1 DlNext = DTo (set_t s1 (DDeleting (Datatypes.S k)) k (d_ts s1 k))). { cbn [dstep s1 d_main]. unfold act. fold s1. cbn [timer_step]. rewrite U, S, U. reflexivity. }
    eapply done_step; [exact X2|reflexivity|]. apply IH with (k := Datatypes.S k); [lia|exact (wc_step n iv s1 DlNext _ W' ltac:(discriminate) X2)|reflexivity].
Qed.
