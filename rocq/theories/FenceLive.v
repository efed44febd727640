(** C36 and C87: runs with timeouts and fences do not get stuck. *)
From Verif Require Import TimeoutModel TimeoutSpec FenceModel FenceSpec FenceProofs FenceProps.
From Coq Require Import Lia.
Local Open Scope nat_scope.
Local Open Scope list_scope.

Record jobs (t : tst) : Prop := {
  j_some : forall j, j < t_next t -> t_job t j <> JNone;
  j_fut : forall e j, t_fut t e = Some j -> j < t_next t;
  j_pc : forall e j, t_pc t e = XBody j \/ t_pc t e = XWait j -> j < t_next t }.
Lemma jobs_new n st up : jobs (t_new n st up).
Proof. split; cbn; intros; [lia|discriminate|]. destruct H; discriminate. Qed.
Lemma jobs_pc t e p lg : jobs t -> (forall j, p = XBody j \/ p = XWait j -> j < t_next t) -> jobs (set_tpc t e p lg).
Proof. intros [A B C] H. split; cbn [set_tpc t_next t_job t_fut t_pc]; auto. intros x j. unfold upd. destruct (Nat.eqb x e); auto. apply C. Qed.
Lemma jobs_call t e lg : jobs t -> jobs (call_body t e lg).
Proof.
  intros [A B C]. unfold call_body. split; cbn [t_next t_job t_fut t_pc].
  - intros j Hj. unfold upd. destruct (Nat.eqb_spec j (t_next t)) as [->|N]; [destruct (strategy_eqb (t_strat t e) Sync); discriminate|]. apply A. lia.
  - intros x j. destruct (strategy_eqb (t_strat t e) Sync); [intros H; apply B in H; lia|]. unfold upd. destruct (Nat.eqb x e); [intros [= <-]; lia|]. intros H. apply B in H. lia.
  - intros x j. unfold upd. destruct (Nat.eqb x e); [destruct (strategy_eqb (t_strat t e) Sync); intros [[= <-]|[= <-]]; lia|]. intros H. apply C in H. lia.
Qed.
Lemma jobs_drop t t' : jobs t -> t_next t' = t_next t -> t_job t' = t_job t -> (forall e j, t_fut t' e = Some j -> t_fut t e = Some j) -> (forall e j, t_pc t' e = XBody j \/ t_pc t' e = XWait j -> t_pc t e = XBody j \/ t_pc t e = XWait j) -> jobs t'.
Proof. intros [A B C] E1 E2 E3 E4. split; rewrite ?E1, ?E2; eauto. Qed.
Lemma upd_none e (f : nat -> option nat) x j : upd f e None x = Some j -> f x = Some j.
Proof. unfold upd. destruct (Nat.eqb x e); [discriminate|auto]. Qed.
Lemma jobs_step t l t' : jobs t -> t_step t l = Some t' -> jobs t'.
Proof.
  intros J H. pose proof J as [A B C]. destruct l as [| |e b|j r|c]; cbn [t_step] in H.
  - destruct (t_ph t); try discriminate. injection H as <-. apply (jobs_drop t); auto. cbn. intros e j [X|X]; discriminate.
  - destruct (t_ph t) as [| |[|e todo] ok]; try discriminate.
    + destruct (t_done t); [|discriminate]. injection H as <-. now apply (jobs_drop t).
    + injection H as <-. now apply (jobs_drop t).
    + destruct (strategy_eqb (t_strat t e) HoldByPipeline); [|injection H as <-; now apply (jobs_drop t)]. destruct (t_fut t e) as [j|]; [|injection H as <-; now apply (jobs_drop t)].
      destruct (t_job t j) as [| | |[| |]]; try discriminate; injection H as <-; apply (jobs_drop t); auto; cbn; intros x y; apply upd_none.
  - destruct (Nat.ltb e (t_n t) && in_go (t_ph t)); [|discriminate]. destruct (t_pc t e) as [|j|j| |ok] eqn:P.
    + destruct (is_timeout t e); injection H as <-; [apply jobs_pc; auto; intros j [X|X]; discriminate|now apply jobs_call].
    + destruct (t_job t j) as [| | |r]; try discriminate. injection H as <-. apply jobs_pc; auto. intros k [X|X]; destruct r; discriminate.
    + destruct (t_job t j) as [| | |r] eqn:Q.
      1-3: destruct b; [|discriminate]; destruct (strategy_eqb (t_strat t e) AsError); injection H as <-; [apply jobs_pc; auto; intros k [X|X]; discriminate|];
           apply (jobs_drop t); auto; cbn; intros x y; unfold upd; destruct (Nat.eqb x e); auto; intros [X|X]; discriminate.
      injection H as <-. apply (jobs_drop t); auto; cbn; [intros x y; apply upd_none|]. intros x y. unfold upd. destruct (Nat.eqb x e); auto. intros [X|X]; destruct r; discriminate.
    + destruct b; injection H as <-; [now apply jobs_call|]. apply jobs_pc; auto. intros k [X|X]; discriminate.
    + discriminate.
  - destruct (t_job t j) eqn:Q; try discriminate; injection H as <-; split; cbn [t_next t_job t_fut t_pc]; auto; intros k Hk; unfold upd; destruct (Nat.eqb k j); try discriminate; now apply A.
  - destruct (Nat.leb (t_n t) c); [|discriminate]. destruct (is_timeout t c); injection H as <-; now apply (jobs_drop t).
Qed.
Lemma jobs_f_step s l s' : jobs (f_t s) -> f_step s l = Some s' -> jobs (f_t s').
Proof.
  intros J H. destruct l as [[| |e b|j r|c]|f]; cbn [f_step] in H.
  - destruct (t_step (f_t s) TLRun) as [t|] eqn:E; [|discriminate]. injection H as <-. exact (jobs_step _ _ _ J E).
  - destruct (t_ph (f_t s)) eqn:P.
    2: { destruct (f_done s); [|discriminate]. injection H as <-. now apply (jobs_drop (f_t s)). }
    all: destruct (t_step (f_t s) TLOwner) as [t|] eqn:E; [|discriminate]; injection H as <-; exact (jobs_step _ _ _ J E).
  - destruct (t_step (f_t s) (TLElem e b)) as [t|] eqn:E; [|discriminate]. injection H as <-. exact (jobs_step _ _ _ J E).
  - destruct (t_step (f_t s) (TLJob j r)) as [t|] eqn:E; [|discriminate]. injection H as <-. exact (jobs_step _ _ _ J E).
  - destruct (t_step (f_t s) (TLChild c)) as [t|] eqn:E; [|discriminate]. injection H as <-. exact (jobs_step _ _ _ J E).
  - destruct (Nat.ltb f (f_n s) && in_go (t_ph (f_t s))); [|discriminate]. destruct (f_pc s f) as [|[|e r] ok|ok]; try discriminate.
    + destruct (forallb _ (f_after s f)); [|discriminate]. injection H as <-. exact J.
    + injection H as <-. exact J.
    + destruct (t_fut (f_t s) e) as [j|]; [|injection H as <-; exact J]. destruct (t_job (f_t s) j) as [| | |[| |]]; try discriminate; injection H as <-; apply (jobs_drop (f_t s)); auto; cbn; intros x y; apply upd_none.
Qed.
Lemma jobs_f_run : forall ls s s', jobs (f_t s) -> f_run s ls = Some s' -> jobs (f_t s').
Proof. induction ls as [|l ls IH]; intros s s' J H; cbn [f_run] in H; [now injection H as <-|]. destruct (f_step s l) as [s1|] eqn:E; [|discriminate]. apply (IH s1 s'); [|exact H]. exact (jobs_f_step _ _ _ J E). Qed.

Lemma t_step_n t l t' : t_step t l = Some t' -> t_n t' = t_n t.
Proof.
  intros H. destruct l; cbn [t_step] in H; unfold call_body in H;
  repeat match type of H with
  | context [match ?x with _ => _ end] => destruct x; try discriminate H
  end; injection H as <-; reflexivity.
Qed.
Lemma f_step_n s l s' : f_step s l = Some s' -> f_n s' = f_n s /\ f_after s' = f_after s /\ t_n (f_t s') = t_n (f_t s).
Proof.
  intros H. assert (T : forall l t, t_step (f_t s) l = Some t -> t_n t = t_n (f_t s)) by (intros l0 t; apply t_step_n).
  destruct l as [[| |e b|j r|c]|f]; cbn [f_step] in H.
  1,3,4,5: match type of H with context [t_step ?a ?b] => destruct (t_step a b) as [t|] eqn:E; [|discriminate]; injection H as <-; cbn; split; [reflexivity|]; split; [reflexivity|]; exact (T _ _ E) end.
  - destruct (t_ph (f_t s)).
    2: { destruct (f_done s); [|discriminate]. injection H as <-. auto. }
    all: match type of H with context [t_step ?a ?b] => destruct (t_step a b) as [t|] eqn:E; [|discriminate]; injection H as <-; cbn; split; [reflexivity|]; split; [reflexivity|]; exact (T _ _ E) end.
  - repeat match type of H with
    | context [match ?x with _ => _ end] => destruct x; try discriminate H
    end; injection H as <-; auto.
Qed.
(** Something that belongs to the run: an action of the owner, an element, a fence, or a body that starts or ends; no wait has to expire, no isHold to ask for a repetition. *)
Definition of_run (l : flabel) : Prop := match l with FL TLRun | FL (TLChild _) | FL (TLElem _ true) => False | _ => True end.
Lemma job_goes s j : jobs (f_t s) -> j < t_next (f_t s) -> (forall r, t_job (f_t s) j <> JDone r) -> exists s', f_step s (FL (TLJob j ROk)) = Some s'.
Proof. intros J L N. pose proof (j_some _ J j L) as X. cbn [f_step t_step]. destruct (t_job (f_t s) j) as [| | |r]; [contradiction| | |now destruct (N r)]; eexists; reflexivity. Qed.
Lemma done_or (x : job) : (exists r, x = JDone r) \/ forall r, x <> JDone r.
Proof. destruct x as [| | |r]; [right; discriminate..|left; now exists r]. Qed.
Lemma search {A} (p : A -> bool) (l : list A) : (exists x, In x l /\ p x = false) \/ forallb p l = true.
Proof. induction l as [|a l IH]; [now right|]. destruct (p a) eqn:E; [|left; exists a; split; [now left|exact E]]. destruct IH as [(x & Hx & Px)|IH]; [left; exists x; split; [now right|exact Px]|right; cbn; now rewrite E]. Qed.
Lemma never_stuck s : jobs (f_t s) -> t_ph (f_t s) <> POut -> (forall f, f < f_n s -> forall e, In e (f_after s f) -> e < t_n (f_t s)) -> exists l s', of_run l /\ f_step s l = Some s'.
Proof.
  intros J P FA. destruct (t_ph (f_t s)) as [| |[|e todo] ok] eqn:Ph; [contradiction| | |].
  2: { exists (FL TLOwner). eexists. split; [exact I|]. cbn [f_step t_step]. rewrite Ph. reflexivity. }
  2: { destruct (t_fut (f_t s) e) as [j|] eqn:F.
       - destruct (done_or (t_job (f_t s) j)) as [[r Q]|Q].
         + exists (FL TLOwner). cbn [f_step t_step]. rewrite Ph, F, Q. destruct (strategy_eqb (t_strat (f_t s) e) HoldByPipeline); [destruct r|]; eexists; (split; [exact I|reflexivity]).
         + destruct (job_goes s j J (j_fut _ J e j F) Q) as [s' X]. exists (FL (TLJob j ROk)), s'. now split.
       - exists (FL TLOwner). cbn [f_step t_step]. rewrite Ph, F. destruct (strategy_eqb (t_strat (f_t s) e) HoldByPipeline); eexists; (split; [exact I|reflexivity]). }
  assert (EL : forall e s1, e < t_n (f_t s) -> t_step (f_t s) (TLElem e false) = Some s1 -> exists l s', of_run l /\ f_step s l = Some s').
  { intros e s1 He X. exists (FL (TLElem e false)). eexists. split; [exact I|]. cbn [f_step]. rewrite X. reflexivity. }
  destruct (search (fun e => t_fin (t_pc (f_t s) e)) (seq 0 (t_n (f_t s)))) as [(e & He & Pe)|AllFin].
  { apply in_seq in He. assert (Le : e < t_n (f_t s)) by lia. pose proof (proj2 (Nat.ltb_lt e (t_n (f_t s))) Le) as Lb.
    destruct (t_pc (f_t s) e) as [|j|j| |ok] eqn:Q; [| | | |discriminate].
    - destruct (is_timeout (f_t s) e) eqn:T; eapply (EL e); auto; cbn [t_step]; rewrite Lb, Ph, Q, T; reflexivity.
    - assert (Lj : j < t_next (f_t s)) by (apply (j_pc _ J e); now left). destruct (done_or (t_job (f_t s) j)) as [[r R]|R].
      + eapply (EL e); auto. cbn [t_step]. rewrite Lb, Ph, Q, R. reflexivity.
      + destruct (job_goes s j J Lj R) as [s' X]. exists (FL (TLJob j ROk)), s'. now split.
    - assert (Lj : j < t_next (f_t s)) by (apply (j_pc _ J e); now right). destruct (done_or (t_job (f_t s) j)) as [[r R]|R].
      + eapply (EL e); auto. cbn [t_step]. rewrite Lb, Ph, Q, R. reflexivity.
      + destruct (job_goes s j J Lj R) as [s' X]. exists (FL (TLJob j ROk)), s'. now split.
    - eapply (EL e); auto. cbn [t_step]. rewrite Lb, Ph, Q. reflexivity. }
  destruct (search (fun f => f_fin (f_pc s f)) (seq 0 (f_n s))) as [(f & Hf & Pf)|AllF].
  2: { exists (FL TLOwner). eexists. split; [exact I|]. cbn [f_step]. rewrite Ph. unfold f_done, f_all. rewrite AllFin, AllF. reflexivity. }
  destruct (search (fun f => f_idle (f_pc s f)) (seq 0 (f_n s))) as [(h & Hh & Ph')|Idle].
  { apply in_seq in Hh. assert (Lb : Nat.ltb h (f_n s) = true) by (apply Nat.ltb_lt; lia). destruct (f_pc s h) as [|[|e r] ok|ok] eqn:Q; try discriminate.
    - exists (FStep h). eexists. split; [exact I|]. cbn [f_step]. rewrite Lb, Ph, Q. reflexivity.
    - destruct (t_fut (f_t s) e) as [j|] eqn:F.
      + destruct (done_or (t_job (f_t s) j)) as [[x R]|R].
        * exists (FStep h). cbn [f_step]. rewrite Lb, Ph, Q, F, R. destruct x; eexists; (split; [exact I|reflexivity]).
        * destruct (job_goes s j J (j_fut _ J e j F) R) as [s' X]. exists (FL (TLJob j ROk)), s'. now split.
      + exists (FStep h). eexists. split; [exact I|]. cbn [f_step]. rewrite Lb, Ph, Q, F. reflexivity. }
  apply in_seq in Hf. assert (Lb : Nat.ltb f (f_n s) = true) by (apply Nat.ltb_lt; lia). destruct (f_pc s f) as [| |] eqn:Q; [| |discriminate].
  2: { rewrite forallb_forall in Idle. specialize (Idle f ltac:(apply in_seq; lia)). rewrite Q in Idle. discriminate. }
  destruct (search (fun e => match t_pc (f_t s) e with XFin true => true | _ => false end) (f_after s f)) as [(e & He & Pe)|Af].
  - (* an element before the fence has failed: the run ends *)
    exists (FL TLOwner). eexists. split; [exact I|]. cbn [f_step]. rewrite Ph. assert (Le : e < t_n (f_t s)) by (apply (FA f ltac:(lia) e He)).
    assert (K : t_ok (f_t s) = false).
    { unfold t_ok. destruct (forallb (fun e => negb (t_failed (t_pc (f_t s) e))) (seq 0 (t_n (f_t s)))) eqn:X; [|reflexivity]. rewrite forallb_forall in X, AllFin. specialize (X e ltac:(apply in_seq; lia)). specialize (AllFin e ltac:(apply in_seq; lia)). destruct (t_pc (f_t s) e) as [| | | |[|]]; discriminate. }
    unfold f_done. rewrite K. assert (Ie : forallb (fun e => t_idle (t_pc (f_t s) e)) (seq 0 (t_n (f_t s))) = true). { rewrite forallb_forall in *. intros x Hx. specialize (AllFin x Hx). destruct (t_pc (f_t s) x); try discriminate; reflexivity. }
    rewrite Ie. unfold f_all at 2. rewrite Idle. cbn [negb orb andb]. rewrite orb_true_r. reflexivity.
  - exists (FStep f). eexists. split; [exact I|]. cbn [f_step]. rewrite Lb, Ph, Q, Af. reflexivity.
Qed.

(** C87: however a run with timeouts and fences has gone so far, it is not stuck: the owner, an element, a fence or a body can make a step; nobody has to wait for a timeout to expire. *)
Theorem C87_never_stuck : forall n st up nf wt af ls s, (forall f, f < nf -> forall e, In e (af f) -> e < n) -> f_run (f_new n st up nf wt af) ls = Some s -> t_ph (f_t s) <> POut -> exists l s', of_run l /\ f_step s l = Some s'.
Proof.
  intros n st up nf wt af ls s FA H P. assert (C : f_n s = nf /\ f_after s = af /\ t_n (f_t s) = n).
  { assert (K : forall ls s0 s, f_run s0 ls = Some s -> f_n s = f_n s0 /\ f_after s = f_after s0 /\ t_n (f_t s) = t_n (f_t s0)).
    { clear. induction ls as [|l ls IH]; intros s0 s H; cbn [f_run] in H; [injection H as <-; auto|]. destruct (f_step s0 l) as [s1|] eqn:E; [|discriminate]. destruct (IH _ _ H) as (A & B & C). rewrite A, B, C. exact (f_step_n _ _ _ E). }
    exact (K ls _ _ H). }
  destruct C as (C1 & C2 & C3). apply never_stuck; [refine (jobs_f_run ls _ s _ H); apply jobs_new|exact P|]. rewrite C1, C2, C3. exact FA.
Qed.
Print Assumptions C87_never_stuck.

(** C36: the same without fences. *)
Lemma f_done_0 s : f_n s = 0 -> t_done (f_t s) = f_done s.
Proof.
  intros E. unfold f_done, f_none_bad, f_all, t_done, t_ok. rewrite E. cbn [seq forallb]. rewrite !andb_true_r. cbn [negb]. rewrite orb_false_r. f_equal. f_equal.
  induction (seq 0 (t_n (f_t s))) as [|a l IH]; [reflexivity|]. cbn [existsb forallb]. rewrite IH. now destruct (t_failed (t_pc (f_t s) a)).
Qed.
Lemma t_to_f n st up nf wt af : nf = 0 -> forall ls t, t_run (t_new n st up) ls = Some t -> exists s, f_run (f_new n st up nf wt af) (map FL ls) = Some s /\ f_t s = t /\ f_n s = 0.
Proof.
  intros E. assert (K : forall ls s t, f_n s = 0 -> t_run (f_t s) ls = Some t -> exists s', f_run s (map FL ls) = Some s' /\ f_t s' = t /\ f_n s' = 0).
  { induction ls as [|l ls IH]; intros s t N H; cbn [t_run] in H; [injection H as <-; now exists s|]. destruct (t_step (f_t s) l) as [t1|] eqn:St; [|discriminate].
    assert (Q : exists s1, f_step s (FL l) = Some s1 /\ f_t s1 = t1 /\ f_n s1 = 0).
    { destruct l; cbn [f_step]; rewrite ?St; try (eexists; split; [reflexivity|]; cbn; auto; fail). destruct (t_ph (f_t s)) eqn:P; try (eexists; split; [reflexivity|]; cbn; auto; fail).
      cbn [t_step] in St. rewrite P, (f_done_0 s N) in St. destruct (f_done s); [|discriminate]. injection St as <-. eexists. split; [reflexivity|]. cbn. split; [|exact N]. f_equal. unfold f_none_bad, f_all. rewrite N. cbn. rewrite andb_true_r. reflexivity. }
    destruct Q as (s1 & Q1 & Q2 & Q3). subst t1. destruct (IH s1 t Q3 H) as (s' & A & B). exists s'. cbn [map f_run]. rewrite Q1. now split. }
  intros ls t H. apply (K ls (f_new n st up nf wt af) t); [exact E|exact H].
Qed.
Definition of_run_t (l : tlabel) : Prop := match l with TLRun | TLChild _ | TLElem _ true => False | _ => True end.
Theorem C36_never_stuck : forall n st up ls s, t_run (t_new n st up) ls = Some s -> t_ph s <> POut -> exists l s', of_run_t l /\ t_step s l = Some s'.
Proof.
  intros n st up ls t H P. destruct (t_to_f n st up 0 (fun _ => []) (fun _ => []) eq_refl ls t H) as (s & F & <- & N).
  destruct (C87_never_stuck n st up 0 (fun _ => []) (fun _ => []) (map FL ls) s ltac:(intros f Hf; lia) F P) as ([l|f] & s' & O & St).
  - exists l. assert (Q : exists t', t_step (f_t s) l = Some t'); [|destruct Q as [t' Q]; exists t'; split; [exact O|exact Q]].
    destruct l; cbn [f_step] in St; try (match type of St with context [t_step ?a ?b] => destruct (t_step a b) as [t1|] eqn:E; [now exists t1|discriminate] end).
    destruct (t_ph (f_t s)) eqn:Ph.
    2: { cbn [t_step]. rewrite Ph, (f_done_0 s N). destruct (f_done s); [|discriminate]. eexists. reflexivity. }
    all: match type of St with context [t_step ?a ?b] => destruct (t_step a b) as [t1|] eqn:E; [now exists t1|discriminate] end.
  - cbn [f_step] in St. rewrite N in St. cbn in St. discriminate.
Qed.
Print Assumptions C36_never_stuck.
(** Not vacuous: a run in which a fence waits for a late body. *)
Example C87_never_stuck_ex : exists s, f_run (f_new 3 stF (fun _ => []) 1 wtF wtF) lateF = Some s /\ t_ph (f_t s) = PGo /\ f_step s (FStep 0) = None /\ f_step s (FL TLOwner) = None.
Proof. eexists. split; [vm_compute; reflexivity|]. split; [reflexivity|]. split; reflexivity. Qed.
