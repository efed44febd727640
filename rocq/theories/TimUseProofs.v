From Verif Require Import TimUseSpec.
From Coq Require Import Lia.
Local Open Scope nat_scope.
Local Open Scope list_scope.

Ltac rd := cbn [at_pc put_stop put_fut put_work more q_stop q_fut q_n q_work q_pc] in *.
Lemma qrun_app a : forall s b, qrun s (a ++ b) = match qrun s a with QRun s' => qrun s' b | x => x end.
Proof. induction a as [|l a IH]; intros s b; cbn [app qrun]; [reflexivity|]. destruct (qstep s l); try reflexivity. apply IH. Qed.

(** * Users that take turns *)
Definition rest (s : qst) (t : nat) : Prop := forall x, x <> t -> q_pc s x = PIdle.
Definition alldone (s : qst) : Prop := forall w, q_work s w = KEnd.
Definition only (s : qst) (v : nat) : Prop := forall w, w <> v -> q_work s w = KEnd.
Definition phase (s : qst) (p : cpc) : Prop :=
  match p with
  | PIdle => if q_stop s then alldone s else exists v, q_fut s = Some v /\ q_work s v <> KEnd /\ only s v
  | A1 | A2 => q_stop s = false /\ alldone s
  | A3 w => q_stop s = false /\ w < q_n s /\ q_work s w <> KEnd /\ only s w /\ q_fut s <> Some w
  | B1 | B2 => q_stop s = true /\ exists v, q_fut s = Some v /\ only s v
  end.
Record tinv (s : qst) (t : nat) : Prop := mk_tinv
  { t_rest : rest s t;
    t_phase : phase s (q_pc s t);
    t_fut : forall v, q_fut s = Some v -> v < q_n s;
    t_work : forall w, q_work s w <> KEnd -> w < q_n s }.
Lemma tinv_new t : tinv q_new t.
Proof. constructor; cbn; try easy. Qed.
Lemma tinv_quiet s t u : tinv s t -> quiet s -> tinv s u.
Proof. intros [R P F W] Q. constructor; auto; [intros x _; apply Q|]. rewrite Q in *. exact P. Qed.
Lemma rest_upd s t p s' : rest s t -> q_pc s' = upd (q_pc s) t p -> rest s' t.
Proof. intros R E x N. rewrite E, upd_other by exact N. now apply R. Qed.
Lemma tinv_work s t w b s' : tinv s t -> qstep s (Work w b) = QRun s' -> tinv s' t.
Proof.
  intros [R P F W] E. cbn [qstep] in E.
  assert (NE : q_work s w <> KEnd) by (intro X; rewrite X in E; discriminate).
  assert (K : exists k, s' = put_work s w k /\ (k = KEnd -> q_stop s = true)).
  { destruct (q_work s w); try discriminate; injection E as <-; eexists; (split; [reflexivity|]).
    - now destruct (q_stop s).
    - now destruct b.
    - now destruct (q_stop s).
    - discriminate. }
  destruct K as (k & -> & KE). constructor; rd; auto.
  - assert (ON : forall v, only s v -> only (put_work s w k) v).
    { intros v O x N. rd. destruct (Nat.eq_dec x w) as [-> |D]; [now destruct NE; apply O|]. rewrite upd_other by exact D. now apply O. }
    assert (ST : forall v, q_stop s = false -> q_work s v <> KEnd -> upd (q_work s) w k v <> KEnd).
    { intros v S0 N. destruct (Nat.eq_dec v w) as [-> |D]; [rewrite upd_same; intro X; specialize (KE X); congruence|now rewrite upd_other by exact D]. }
    destruct (q_pc s t); cbn [phase] in *; rd.
    + destruct (q_stop s); [now destruct NE|]. destruct P as (v & P1 & P2 & P3). exists v. auto.
    + destruct P as [_ P]. now destruct NE.
    + destruct P as [_ P]. now destruct NE.
    + destruct P as (P1 & P2 & P3 & P4 & P5). auto 10.
    + destruct P as (P1 & v & P2 & P3). split; [exact P1|]. exists v. auto.
    + destruct P as (P1 & v & P2 & P3). split; [exact P1|]. exists v. auto.
  - intros x N. destruct (Nat.eq_dec x w) as [-> |D]; [now apply W|]. rewrite upd_other in N by exact D. now apply W.
Qed.
Lemma tinv_go s t s' : tinv s t -> qstep s (Go t) = QRun s' -> tinv s' t.
Proof.
  intros [R P F W] E. cbn [qstep] in E. destruct (q_pc s t) eqn:U; try discriminate; cbn [phase] in P.
  - injection E as <-. constructor; rd; auto; [eapply rest_upd; [exact R|reflexivity]|]. rewrite upd_same. exact P.
  - injection E as <-. destruct P as [P1 P2]. constructor; rd.
    + eapply rest_upd; [exact R|reflexivity].
    + rewrite upd_same. cbn [phase]. rd. split; [exact P1|]. split; [lia|]. split; [rewrite upd_same; discriminate|]. split; [intros x N; rd; rewrite upd_other by exact N; apply P2|]. intro X. specialize (F _ X). lia.
    + intros v X. specialize (F _ X). lia.
    + intros x N. destruct (Nat.eq_dec x (q_n s)) as [-> |D]; [lia|]. rewrite upd_other in N by exact D. specialize (W _ N). lia.
  - destruct (done s) eqn:D; [|discriminate]. injection E as <-. destruct P as (P1 & P2 & P3 & P4 & P5). constructor; rd; auto.
    + eapply rest_upd; [exact R|reflexivity].
    + rewrite upd_same. cbn [phase]. rd. rewrite P1. exists w. auto.
    + intros v X. now injection X as <-.
  - injection E as <-. constructor; rd; auto; [eapply rest_upd; [exact R|reflexivity]|]. rewrite upd_same. exact P.
  - destruct P as (P1 & v & P2 & P3). rewrite P2 in E. destruct (done s) eqn:D; [|discriminate]. injection E as <-. constructor; rd; auto; [eapply rest_upd; [exact R|reflexivity]|].
    rewrite upd_same. cbn [phase]. rd. rewrite P1. intro x. rd. destruct (Nat.eq_dec x v) as [-> |N]; [|now apply P3]. unfold done in D. rewrite P2 in D. now destruct (q_work s v).
Qed.
Lemma turns_inv s : turns s -> exists t, tinv s t.
Proof.
  induction 1 as [|s l s' T (t & I) C E]; [exists 0; apply tinv_new|]. destruct l as [u|u|u|w b].
  - pose proof (tinv_quiet s t u I (C Logic.I)) as [R P F W]. cbn [qstep] in E. rewrite (C Logic.I u) in E, P. cbn [phase] in P. destruct (q_stop s) eqn:S0; injection E as <-.
    + exists u. constructor; rd; auto; [eapply rest_upd; [exact R|reflexivity]|]. rewrite upd_same. now split.
    + exists t. exact I.
  - pose proof (tinv_quiet s t u I (C Logic.I)) as [R P F W]. cbn [qstep] in E. rewrite (C Logic.I u) in E, P. cbn [phase] in P. destruct (q_stop s) eqn:S0; injection E as <-.
    + exists t. exact I.
    + exists u. destruct P as (v & P1 & P2 & P3). constructor; rd; auto; [eapply rest_upd; [exact R|reflexivity]|]. rewrite upd_same. split; [reflexivity|]. exists v. auto.
  - destruct (Nat.eq_dec u t) as [-> |N]; [exists t; eapply tinv_go; eassumption|]. cbn [qstep] in E. rewrite (t_rest _ _ I u N) in E. discriminate.
  - exists t. eapply tinv_work; eassumption.
Qed.
(** A timer thread told to stop ends. *)
Lemma worker_ends s w : q_stop s = true -> exists n s', qrun s (repeat (Work w false) n) = QRun s' /\ q_work s' w = KEnd /\ q_pc s' = q_pc s /\ q_fut s' = q_fut s.
Proof.
  intro S0. destruct (q_work s w) eqn:K.
  - exists 1. eexists. cbn [repeat qrun qstep]. rewrite K, S0. split; [reflexivity|]. rd. rewrite upd_same. auto.
  - exists 2. eexists. cbn [repeat qrun qstep]. rewrite K. rd. rewrite upd_same, S0. split; [reflexivity|]. rd. rewrite upd_same. auto.
  - exists 2. eexists. cbn [repeat qrun qstep]. rewrite K, S0. rd. rewrite upd_same, S0. split; [reflexivity|]. rd. rewrite upd_same. auto.
  - exists 2. eexists. cbn [repeat qrun qstep]. rewrite K. rd. rewrite upd_same, S0. split; [reflexivity|]. rd. rewrite upd_same. auto.
  - exists 0, s. auto.
Qed.
Lemma rest_quiet s t : rest s t -> q_pc s t = PIdle -> quiet s.
Proof. intros R P x. destruct (Nat.eq_dec x t) as [-> |N]; auto. Qed.
Lemma stop_returns s t : rest s t -> q_pc s t = B2 -> q_stop s = true -> (exists v, q_fut s = Some v) -> exists ls s', Forall (fun l => ~ call l) ls /\ qrun s ls = QRun s' /\ quiet s'.
Proof.
  intros R P S0 (v & F). destruct (worker_ends s v S0) as (n & s1 & E1 & K & P1 & F1). exists (repeat (Work v false) n ++ [Go t]). eexists. split; [|split].
  - apply Forall_app. split; [apply Forall_forall; intros l H; apply repeat_spec in H; subst; auto|constructor; auto].
  - rewrite qrun_app, E1. cbn [qrun qstep]. rewrite P1, P, F1, F. unfold done. rewrite F1, F, K. reflexivity.
  - intro x. rd. rewrite P1. destruct (Nat.eq_dec x t) as [-> |N]; [apply upd_same|]. rewrite upd_other by exact N. now apply R.
Qed.
Lemma assign_returns s t w : rest s t -> q_pc s t = A3 w -> done s = true -> exists ls s', Forall (fun l => ~ call l) ls /\ qrun s ls = QRun s' /\ quiet s'.
Proof.
  intros R P D. exists [Go t]. eexists. split; [constructor; auto|]. split; [cbn [qrun qstep]; rewrite P, D; reflexivity|]. intro x. rd. destruct (Nat.eq_dec x t) as [-> |N]; [apply upd_same|]. rewrite upd_other by exact N. now apply R.
Qed.
Lemma goes_on s t s1 : qstep s (Go t) = QRun s1 -> (exists ls s', Forall (fun l => ~ call l) ls /\ qrun s1 ls = QRun s' /\ quiet s') -> exists ls s', Forall (fun l => ~ call l) ls /\ qrun s ls = QRun s' /\ quiet s'.
Proof. intros E (ls & s' & C & R & Q). exists (Go t :: ls), s'. split; [constructor; auto|]. split; [cbn [qrun]; now rewrite E|exact Q]. Qed.
Lemma all_return s t : tinv s t -> exists ls s', Forall (fun l => ~ call l) ls /\ qrun s ls = QRun s' /\ quiet s'.
Proof.
  assert (T3 : forall s w, tinv s t -> q_pc s t = A3 w -> exists ls s', Forall (fun l => ~ call l) ls /\ qrun s ls = QRun s' /\ quiet s').
  { clear s. intros s w [R P F W] U. rewrite U in P. destruct P as (P1 & P2 & P3 & P4 & P5). apply (assign_returns s t w R U). unfold done. destruct (q_fut s) as [v|]; [|reflexivity]. rewrite P4; [reflexivity|]. congruence. }
  assert (T2 : forall s, tinv s t -> q_pc s t = A2 -> exists ls s', Forall (fun l => ~ call l) ls /\ qrun s ls = QRun s' /\ quiet s').
  { clear s. intros s I U. assert (E : qstep s (Go t) = QRun (at_pc (more s) t (A3 (q_n s)))) by (cbn [qstep]; now rewrite U). eapply goes_on; [exact E|]. eapply T3; [eapply tinv_go; eassumption|]. rd. apply upd_same. }
  intros I. pose proof I as [R P F W]. destruct (q_pc s t) eqn:U.
  - exists [], s. split; [constructor|]. split; [reflexivity|]. now apply (rest_quiet s t).
  - assert (E : qstep s (Go t) = QRun (at_pc s t A2)) by (cbn [qstep]; now rewrite U). eapply goes_on; [exact E|]. eapply T2; [eapply tinv_go; eassumption|]. rd. apply upd_same.
  - now apply T2.
  - now apply (T3 s w).
  - destruct P as (P1 & v & P2 & P3). assert (E : qstep s (Go t) = QRun (at_pc s t B2)) by (cbn [qstep]; now rewrite U). eapply goes_on; [exact E|]. apply (stop_returns _ t); rd; auto; [eapply rest_upd; [exact R|reflexivity]|apply upd_same|eauto].
  - destruct P as (P1 & v & P2 & P3). apply (stop_returns s t); eauto.
Qed.

(** * Only start is called *)
Definition sinv (s : qst) : Prop :=
  q_stop s = true /\ quiet s /\ q_n s = 0 /\ q_fut s = None \/
  q_stop s = false /\ exists t, rest s t /\ match q_pc s t with
    | A1 | A2 => q_n s = 0 /\ q_fut s = None | A3 w => q_n s = 1 /\ w = 0 /\ q_fut s = None | PIdle => q_n s = 1 /\ q_fut s = Some 0 | _ => False end.
Lemma sinv_step s l : (forall t, l <> Stop t) -> sinv s -> match qstep s l with QRun s' => sinv s' /\ (q_stop s = false -> q_stop s' = false) /\ (forall t, l = Start t -> q_stop s' = false) | QUndef => False | QStuck => True end.
Proof.
  intros NS I. destruct l as [u|u|u|w b].
  - cbn [qstep]. destruct (q_pc s u) eqn:U; auto. destruct I as [(S0 & Q & N & F)|(S0 & I)]; rewrite S0.
    + rd. split; [|auto]. right. rd. split; [reflexivity|]. exists u. split; [|rewrite upd_same; auto]. eapply rest_upd; [|reflexivity]. intros x _. rd. apply Q.
    + split; [right; auto|auto].
  - now destruct (NS u).
  - destruct I as [(S0 & Q & N & F)|(S0 & t & R & I)]; [cbn [qstep]; now rewrite Q|]. destruct (Nat.eq_dec u t) as [-> |NE]; [|cbn [qstep]; now rewrite (R _ NE)]. cbn [qstep].
    destruct (q_pc s t) eqn:U; auto; rd.
    + split; [|split; [auto|discriminate]]. right. rd. split; [exact S0|]. exists t. split; [eapply rest_upd; [exact R|reflexivity]|]. now rewrite upd_same.
    + destruct I as [N F]. split; [|split; [auto|discriminate]]. right. rd. split; [exact S0|]. exists t. split; [eapply rest_upd; [exact R|reflexivity]|]. rewrite upd_same, N. auto.
    + destruct I as (N & -> & F). unfold done. rewrite F. split; [|split; [auto|discriminate]]. right. rd. split; [exact S0|]. exists t. split; [eapply rest_upd; [exact R|reflexivity]|]. rewrite upd_same. auto.
    + destruct I.
    + destruct I.
  - cbn [qstep]. destruct (q_work s w); auto; (split; [exact I|split; [auto|discriminate]]).
Qed.
Lemma sinv_run ls : forall s, (forall t, ~ In (Stop t) ls) -> sinv s -> match qrun s ls with QRun s' => sinv s' /\ (q_stop s = false \/ (exists t, In (Start t) ls) -> q_stop s' = false) | QUndef => False | QStuck => True end.
Proof.
  induction ls as [|l ls IH]; intros s N I; cbn [qrun]; [split; [exact I|]; intros [X|[t []]]; exact X|].
  assert (NL : forall t, l <> Stop t) by (intros t ->; apply (N t); now left). pose proof (sinv_step s l NL I) as H. destruct (qstep s l) as [s1| |]; auto. destruct H as (I1 & H1 & H2).
  assert (N' : forall t, ~ In (Stop t) ls) by (intros t X; apply (N t); now right). specialize (IH s1 N' I1). destruct (qrun s1 ls); auto. destruct IH as [I2 H]. split; [exact I2|]. intros [X|[t [X|X]]]; apply H; [left; auto|left; eapply H2; exact X|right; eauto].
Qed.

(** * A start inside a stop *)
Definition hang (s : qst) (t u v w : nat) : Prop :=
  q_stop s = false /\ q_fut s = Some v /\ v <> w /\ v < q_n s /\ w < q_n s /\ q_work s v <> KEnd /\ q_work s w <> KEnd /\ q_pc s u = A3 w /\ (q_pc s t = B1 \/ q_pc s t = B2) /\ forall x, x <> t -> x <> u -> q_pc s x = PIdle.
Lemma hang_step s t u v w l s' : (forall x, l <> Stop x) -> hang s t u v w -> qstep s l = QRun s' -> hang s' t u v w.
Proof.
  intros NS H E. pose proof H as (S0 & F & VW & NV & NW & KV & KW & U & T & R). assert (D : done s = false) by (unfold done; rewrite F; now destruct (q_work s v)). destruct l as [x|x|x|k b]; cbn [qstep] in E.
  - destruct (q_pc s x); try discriminate. rewrite S0 in E. injection E as <-. exact H.
  - now destruct (NS x).
  - destruct (Nat.eq_dec x u) as [-> |NU]; [rewrite U, D in E; discriminate|]. destruct (Nat.eq_dec x t) as [-> |NT]; [|rewrite (R x NT NU) in E; discriminate].
    destruct T as [T|T]; rewrite T in E; [|rewrite F, D in E; discriminate]. injection E as <-. unfold hang. rd. rewrite upd_same. rewrite upd_other by congruence. repeat (split; [assumption|]). split; [now right|]. intros x X1 X2. rewrite upd_other by exact X1. now apply R.
  - assert (K : exists j, s' = put_work s k j /\ j <> KEnd) by (rewrite S0 in E; destruct (q_work s k); try discriminate; injection E as <-; eexists; (split; [reflexivity|]); try destruct b; discriminate).
    destruct K as (j & -> & J). unfold hang. rd. repeat (split; [assumption|]). split; [unfold upd; destruct (Nat.eqb v k); assumption|]. split; [unfold upd; destruct (Nat.eqb w k); assumption|]. repeat (split; [assumption|]). exact R.
Qed.
Lemma hang_run ls : forall s t u v w, (forall x, ~ In (Stop x) ls) -> hang s t u v w -> forall s', qrun s ls = QRun s' -> hang s' t u v w.
Proof.
  induction ls as [|l ls IH]; intros s t u v w N H s' E; cbn [qrun] in E; [injection E as <-; exact H|]. destruct (qstep s l) as [s1| |] eqn:E1; try discriminate. eapply IH; [|eapply hang_step; [|exact H|exact E1]|exact E]; [intros x X; apply (N x); now right|intros x ->; apply (N x); now left].
Qed.
