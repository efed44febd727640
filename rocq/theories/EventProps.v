(** Property theorems on events. *)
From Verif Require Import EventModel.
Local Open Scope nat_scope.
Local Open Scope list_scope.

(** The part of a log (newest first) since the last init; before the elements of the last run ended; before the last call of destroy. *)
Fixpoint since_init (h : list evlog) : list evlog := match h with [] => [] | GInit :: _ => [] | e :: r => e :: since_init r end.
Fixpoint before_elems (h : list evlog) : list evlog := match h with [] => [] | GElems :: r => r | _ :: r => before_elems r end.
Fixpoint before_destroy (h : list evlog) : list evlog := match h with [] => [] | GDestroyCall :: r => r | _ :: r => before_destroy r end.
(** Triggers executed, with repetitions *)
Fixpoint trigs (h : list evlog) : list nat := match h with [] => [] | GTrig t _ :: r => t :: trigs r | _ :: r => trigs r end.
(** When run returns: every run-finish notification called since the last init that had returned when the elements ended has been triggered. *)
Fixpoint finish_kept (h : list evlog) : Prop :=
  match h with
  | [] => True
  | GRunRet :: b => (forall t k, In (GCall t k RunFinish) (since_init b) -> In (GSent t k RunFinish) (before_elems b) -> In (GTrig t k) b) /\ finish_kept b
  | _ :: b => finish_kept b
  end.
(** When destroy returns: the same for notifications with the destroy strategy that had returned when destroy was called. *)
Fixpoint destroy_kept (h : list evlog) : Prop :=
  match h with
  | [] => True
  | GDestroyRet :: b => (forall t k, In (GCall t k OnDestroy) (since_init b) -> In (GSent t k OnDestroy) (before_destroy b) -> In (GTrig t k) b) /\ destroy_kept b
  | _ :: b => destroy_kept b
  end.

Definition alive (ph : ephase) : bool := match ph with PhReady | PhRun | PhRWait _ _ | PhDown => true | _ => false end.
Definition owed (r : list nat) (cur : option (nat * list nat)) (lst : nat -> list nat) (t k : nat) : Prop :=
  (In k r /\ In t (lst k)) \/ exists w, cur = Some (k, w) /\ In t w.
Definition curkey (cur : option (nat * list nat)) : list nat := match cur with Some (k, _) => [k] | None => [] end.

Ltac ev E := cbn [ev_step] in E;
  repeat match type of E with context [match ?x with _ => _ end] => destruct x eqn:?; try discriminate end;
  injection E as <-; unfold with_ph in *; cbn [v_keys v_unique v_pool v_ph v_task v_ev v_next v_pend v_rf v_de v_log app] in *.
Ltac inl := repeat match goal with H : In _ (_ :: _) |- _ => destruct H as [H|H]; [try discriminate H|] end.

(** Bookkeeping *)
Record einvA (s : evst) : Prop :=
  { a_fresh : forall t, v_task s t <> TNot <-> t < v_next s;
    a_pend : forall t g, In (t, g) (v_pend s) -> t < v_next s /\ In (GCall t (v_ev s t) g) (v_log s);
    a_pnd : NoDup (map fst (v_pend s));
    a_call : forall t k g, In (GCall t k g) (v_log s) -> t < v_next s /\ k = v_ev s t /\ In k (v_keys s);
    a_one : forall t k g k' g', In (GCall t k g) (v_log s) -> In (GCall t k' g') (v_log s) -> g = g';
    a_sent : forall t k g, In (GSent t k g) (v_log s) -> In (GCall t k g) (v_log s) /\ ~ In t (map fst (v_pend s));
    a_done : forall t, v_task s t = TDone <-> In (GTrig t (v_ev s t)) (v_log s);
    a_trig : forall t k, In (GTrig t k) (v_log s) -> k = v_ev s t;
    a_once : NoDup (trigs (v_log s));
    a_called : forall t, t < v_next s -> exists g, In (GCall t (v_ev s t) g) (v_log s);
    a_rf : forall k t, In t (v_rf s k) -> t < v_next s;
    a_de : forall k t, In t (v_de s k) -> t < v_next s;
    a_drop : v_unique s = false -> forall t, v_task s t <> TDropped;
    a_pool : v_unique s = false -> v_pool s = true;
    a_down : v_pool s = false -> forall t, v_task s t <> TQueued /\ v_task s t <> TRunning;
    a_up : alive (v_ph s) = true -> v_pool s = true;
    a_err : forall k, In (GErr k) (v_log s) -> ~ In k (v_keys s) }.
Lemma trigs_in h t : In t (trigs h) <-> exists k, In (GTrig t k) h.
Proof.
  induction h as [|e r IH]; cbn [trigs]; [split; [easy|intros [k []]]|]. destruct e; cbn [In]; try (rewrite IH; split; [intros [k' K]; exists k'; now right|intros [k' [K|K]]; [discriminate|now exists k']]).
  rewrite IH. split; [intros [<-|[k' K]]; [exists k; now left|exists k'; now right]|]. intros [k' [K|K]]; [left; congruence|right; now exists k'].
Qed.
Lemma find_pend (l : list (nat * strat)) t p : find (fun p => Nat.eqb (fst p) t) l = Some p -> In p l /\ fst p = t.
Proof. intros H. apply find_some in H. destruct H as [H1 H2]. split; [easy|now apply Nat.eqb_eq]. Qed.
Lemma in_fst {A B} (x : A) (y : B) l : In (x, y) l -> In x (map fst l).
Proof. intros H. change x with (fst (x, y)). now apply in_map. Qed.
Lemma A_new keys u : einvA (ev_new keys u).
Proof. constructor; cbn; try easy; try lia; try constructor; try (intros; lia); try (destruct u; easy). Qed.
Definition quiet (keys : list nat) (e : evlog) : bool := match e with GCall _ _ _ | GSent _ _ _ | GTrig _ _ => false | GErr k => negb (memb k keys) | _ => true end.
Lemma A_weak s s' e : einvA s -> v_keys s' = v_keys s -> v_unique s' = v_unique s -> v_task s' = v_task s -> v_ev s' = v_ev s -> v_next s' = v_next s -> v_pend s' = v_pend s ->
  (forall k, incl (v_rf s' k) (v_rf s k)) -> (forall k, incl (v_de s' k) (v_de s k)) -> v_log s' = e ++ v_log s -> forallb (quiet (v_keys s)) e = true ->
  v_pool s' = true \/ v_pool s' = v_pool s -> (alive (v_ph s') = true -> v_pool s' = true) -> einvA s'.
Proof.
  intros [] K U T V N P R D L Q PL UP.
  assert (L1 : forall x, In x (v_log s') -> quiet (v_keys s) x = false -> In x (v_log s)).
  { intros x X F. rewrite L in X. apply in_app_or in X. destruct X as [X|X]; [|easy]. rewrite forallb_forall in Q. rewrite (Q x X) in F. discriminate. }
  assert (L2 : forall x, In x (v_log s) -> In x (v_log s')) by (intros x X; rewrite L; apply in_or_app; now right).
  assert (L3 : trigs (v_log s') = trigs (v_log s)).
  { rewrite L. clear - Q. induction e as [|x r IH]; [easy|]. cbn in Q. apply andb_prop in Q. destruct Q as [Q1 Q2]. cbn. destruct x; try discriminate Q1; auto. }
  constructor; rewrite ?K, ?U, ?T, ?V, ?N, ?P, ?L3; try easy.
  - intros t g H. destruct (a_pend0 t g H) as [H1 H2]. auto.
  - intros t k g H. apply a_call0 with g. apply L1; easy.
  - intros t k g k' g' H1 H2. apply L1 in H1; [|easy]. apply L1 in H2; [|easy]. eapply a_one0; eauto.
  - intros t k g H. apply L1 in H; [|easy]. destruct (a_sent0 t k g H). split; auto.
  - intros t. rewrite a_done0. split; [apply L2|]. intros H. now apply L1.
  - intros t k H. apply L1 in H; [|easy]. auto.
  - intros t H. destruct (a_called0 t H) as [g G]. exists g. auto.
  - intros k t H. apply (a_rf0 k t). now apply R.
  - intros k t H. apply (a_de0 k t). now apply D.
  - intros H. destruct PL as [-> | ->]; auto.
  - intros H. destruct PL as [PL|PL]; [congruence|]. apply a_down0. congruence.
  - intros k H. destruct (quiet (v_keys s) (GErr k)) eqn:F.
    + cbn in F. apply negb_true_iff in F. now apply memb_false.
    + apply a_err0. now apply L1.
Qed.
Lemma A_step s l s' : einvA s -> ev_step s l = ENext s' -> einvA s'.
Proof.
  intros I E. assert (UP := a_up _ I). destruct l as [| | | | | | |k sync g|t|t|t].
  - ev E. apply (A_weak s _ [GInit]); try easy; cbn; auto; intros; easy.
  - ev E. apply (A_weak s _ []); try easy; cbn; auto; intros; easy.
  - ev E. apply (A_weak s _ [GElems]); try easy; cbn; auto; intros; easy.
  - assert (NW : exists ph rf de e, s' = mkEv (v_keys s) (v_unique s) (v_pool s) ph (v_task s) (v_ev s) (v_next s) (v_pend s) rf de (e ++ v_log s) /\ (forall k, incl (rf k) (v_rf s k)) /\ (forall k, incl (de k) (v_de s k)) /\
      forallb (quiet (v_keys s)) e = true /\ (alive ph = true -> alive (v_ph s) = true)).
    { assert (U : forall f k k', incl (upd (f : nat -> list nat) k [] k') (f k')) by (intros f k k'; unfold upd; destruct (Nat.eqb k' k); [intros x []|apply incl_refl]).
      assert (R : forall (f : nat -> list nat) k, incl (f k) (f k)) by (intros; apply incl_refl).
      cbn [ev_step] in E. destruct (v_ph s) as [| | |r cur| |r cur|]; try discriminate.
      - destruct r as [|k r], cur as [[k0 [|t w]]|]; try (destruct (ready_fut (v_task s t)); [|discriminate]); injection E as <-; unfold with_ph; do 3 eexists; ((exists []; split; [reflexivity|]) || (exists [GRunRet]; split; [reflexivity|])); auto.
      - destruct r as [|k r], cur as [[k0 [|t w]]|]; try (destruct (ready_fut (v_task s t)); [|discriminate]); injection E as <-; unfold with_ph; do 3 eexists; ((exists []; split; [reflexivity|]) || (exists [GDestroyRet]; split; [reflexivity|])); auto. }
    destruct NW as (ph & rf & de & e & -> & R & D & Q & AL). apply (A_weak s _ e); try easy; cbn; auto.
  - ev E. apply (A_weak s _ [GDestroyCall]); try easy; cbn; auto; intros; easy.
  - cbn [ev_step] in E. destruct (v_ph s) eqn:PH; try discriminate. destruct (v_unique s) eqn:U; [|injection E as <-; apply (A_weak s _ []); cbn; auto; intros; easy].
    destruct (existsb _ _) eqn:X; [discriminate|]. injection E as <-.
    assert (NR : forall t, v_task s t <> TRunning).
    { intros t H. assert (t < v_next s) by (apply (a_fresh _ I); congruence). assert (Y : existsb (fun t => match v_task s t with TRunning => true | _ => false end) (seq 0 (v_next s)) = true); [|congruence]. apply existsb_exists. exists t. split; [apply in_seq; lia|]. now rewrite H. }
    destruct I. constructor; cbn [v_keys v_unique v_pool v_ph v_task v_ev v_next v_pend v_rf v_de v_log alive]; try easy.
    + intros t. rewrite <- a_fresh0. destruct (v_task s t); easy.
    + intros t. rewrite <- a_done0. destruct (v_task s t); easy.
    + intros _ t. specialize (NR t). destruct (v_task s t); easy.
  - ev E; apply (A_weak s _ [GDeleted]); try easy; cbn; auto; intros; easy.
  - cbn [ev_step] in E. assert (E' : (if memb k (v_keys s) then if sync then ENext (with_ph s (v_ph s) [GSync k]) else if v_pool s then
              ENext (mkEv (v_keys s) (v_unique s) (v_pool s) (v_ph s) (upd (v_task s) (v_next s) TQueued) (upd (v_ev s) (v_next s) k) (S (v_next s)) ((v_next s, g) :: v_pend s) (v_rf s) (v_de s) (GCall (v_next s) k g :: v_log s)) else EUB
            else ENext (with_ph s (v_ph s) [GErr k])) = ENext s') by (destruct (v_ph s); easy). clear E.
    destruct (memb k (v_keys s)) eqn:M; [|injection E' as <-; apply (A_weak s _ [GErr k]); cbn; rewrite ?M; auto; intros; easy].
    destruct sync; [injection E' as <-; apply (A_weak s _ [GSync k]); cbn; auto; intros; easy|]. destruct (v_pool s) eqn:PL; [|discriminate]. injection E' as <-. apply memb_in in M.
    assert (NT : v_task s (v_next s) = TNot) by (destruct (v_task s (v_next s)) eqn:X; [easy| | | |]; assert (v_next s < v_next s) by (apply (a_fresh _ I); congruence); lia).
    assert (EV : forall t, t < v_next s -> upd (v_ev s) (v_next s) k t = v_ev s t) by (intros t H; apply upd_other; lia).
    assert (TK : forall t, t < v_next s -> upd (v_task s) (v_next s) TQueued t = v_task s t) by (intros t H; apply upd_other; lia).
    assert (NG : forall t k', In (GTrig t k') (v_log s) -> t < v_next s).
    { intros t k' H. apply (a_fresh _ I). pose proof (a_trig _ I t k' H) as ->. apply (a_done _ I) in H. congruence. }
    destruct I. constructor; cbn [v_keys v_unique v_pool v_ph v_task v_ev v_next v_pend v_rf v_de v_log trigs map fst In]; try easy.
    + intros t. destruct (Nat.eq_dec t (v_next s)) as [->|Ht]; [rewrite upd_same; split; [lia|easy]|]. rewrite upd_other by easy. rewrite a_fresh0. lia.
    + intros t g' [H|H]; [injection H as <- <-; rewrite upd_same; split; [lia|now left]|]. destruct (a_pend0 t g' H) as [H1 H2]. rewrite EV by lia. split; [lia|now right].
    + constructor; [|easy]. intros H. apply in_map_iff in H. destruct H as ([t g'] & Q & H). apply a_pend0 in H. cbn in Q. lia.
    + intros t k' g' [H|H]; [injection H as <- <- <-; rewrite upd_same; split; [lia|easy]|]. destruct (a_call0 t k' g' H) as (H1 & H2 & H3). rewrite EV by lia. split; [lia|easy].
    + intros t k1 g1 k2 g2 [H1|H1] [H2|H2]; [congruence|injection H1 as <- <- <-; apply a_call0 in H2; lia|injection H2 as <- <- <-; apply a_call0 in H1; lia|eapply a_one0; eauto].
    + intros t k' g' [H|H]; [discriminate|]. destruct (a_sent0 t k' g' H) as [H1 H2]. split; [now right|]. intros [<-|X]; [apply a_call0 in H1; lia|easy].
    + intros t. destruct (Nat.eq_dec t (v_next s)) as [->|Ht]; [rewrite !upd_same; split; [easy|]; intros [H|H]; [discriminate|]; apply NG in H; lia|]. rewrite !upd_other by easy. rewrite a_done0. split; [now right|]. intros [H|H]; [discriminate|easy].
    + intros t k' [H|H]; [discriminate|]. rewrite EV by (eapply NG; eauto). auto.
    + intros t H. destruct (Nat.eq_dec t (v_next s)) as [->|Ht]; [exists g; rewrite upd_same; now left|]. rewrite EV by lia. destruct (a_called0 t ltac:(lia)) as [g' G]. exists g'. now right.
    + intros k' t H. specialize (a_rf0 k' t H). lia.
    + intros k' t H. specialize (a_de0 k' t H). lia.
    + intros U t. unfold upd. destruct (Nat.eqb t (v_next s)); [easy|auto].
    + intros k' [H|H]; [discriminate|auto].
  - cbn [ev_step] in E. destruct (find _ (v_pend s)) as [[t' g]|] eqn:F; [|discriminate]. apply find_pend in F. cbn in F. destruct F as [F1 F2]. subst t'.
    assert (E' : (if locked (v_ph s) (v_ev s t) g then ENo else ENext (mkEv (v_keys s) (v_unique s) (v_pool s) (v_ph s) (v_task s) (v_ev s) (v_next s) (filter (fun p => negb (Nat.eqb (fst p) t)) (v_pend s))
                          (if strat_eqb g RunFinish then upd (v_rf s) (v_ev s t) (v_rf s (v_ev s t) ++ [t]) else v_rf s) (if strat_eqb g OnDestroy then upd (v_de s) (v_ev s t) (v_de s (v_ev s t) ++ [t]) else v_de s)
                          (GSent t (v_ev s t) g :: v_log s))) = ENext s') by (destruct (v_ph s); easy). clear E. destruct (locked _ _ _); [discriminate|]. injection E' as <-.
    destruct I. destruct (a_pend0 t g F1) as [T1 T2].
    assert (LA : forall (f : nat -> list nat) k x, (forall k t, In t (f k) -> t < v_next s) -> In x (upd f (v_ev s t) (f (v_ev s t) ++ [t]) k) -> x < v_next s).
    { intros f k x H X. unfold upd in X. destruct (Nat.eqb_spec k (v_ev s t)); [|eauto]. apply in_app_or in X. destruct X as [X|[<-|[]]]; eauto. }
    constructor; cbn [v_keys v_unique v_pool v_ph v_task v_ev v_next v_pend v_rf v_de v_log trigs]; try easy.
    + intros t1 g1 H. apply filter_In in H. destruct H as [H _]. destruct (a_pend0 _ _ H). split; [easy|now right].
    + clear - a_pnd0. induction (v_pend s) as [|[a b] r IH]; [constructor|]. cbn in *. inversion a_pnd0 as [|x y N1 N2]; subst. destruct (Nat.eqb a t); cbn; [auto|]. constructor; [|auto]. intros H. apply N1. apply in_map_iff in H. destruct H as (p & P1 & P2). apply filter_In in P2. apply in_map_iff. exists p. easy.
    + intros t1 k1 g1 [H|H]; [discriminate|eauto].
    + intros t1 k1 g1 k2 g2 [H|H] [H'|H']; try discriminate; eauto.
    + intros t1 k1 g1 [H|H].
      * injection H as <- <- <-. split; [now right|]. intros H. apply in_map_iff in H. destruct H as (p & P1 & P2). apply filter_In in P2. destruct P2 as [_ P2]. rewrite P1, Nat.eqb_refl in P2. discriminate.
      * destruct (a_sent0 _ _ _ H) as [H1 H2]. split; [now right|]. intros X. apply H2. apply in_map_iff in X. destruct X as (p & P1 & P2). apply filter_In in P2. apply in_map_iff. exists p. easy.
    + intros t1. rewrite a_done0. split; [now right|]. intros [H|H]; [discriminate|easy].
    + intros t1 k1 [H|H]; [discriminate|eauto].
    + intros t1 H. destruct (a_called0 t1 H) as [g' G]. exists g'. now right.
    + intros k t1. destruct (strat_eqb g RunFinish); [apply LA; easy|apply a_rf0].
    + intros k t1. destruct (strat_eqb g OnDestroy); [apply LA; easy|apply a_de0].
    + intros k [H|H]; [discriminate|auto].
  - cbn [ev_step] in E. destruct (v_task s t) eqn:T; try discriminate. assert (E' : s' = mkEv (v_keys s) (v_unique s) (v_pool s) (v_ph s) (upd (v_task s) t TRunning) (v_ev s) (v_next s) (v_pend s) (v_rf s) (v_de s) (v_log s)) by (destruct (v_ph s); congruence). clear E. subst s'.
    destruct I. constructor; cbn [v_keys v_unique v_pool v_ph v_task v_ev v_next v_pend v_rf v_de v_log trigs]; try easy.
    + intros t1. unfold upd. destruct (Nat.eqb_spec t1 t); [subst; rewrite <- a_fresh0; split; congruence|auto].
    + intros t1. unfold upd. destruct (Nat.eqb_spec t1 t); [subst; rewrite <- a_done0; split; congruence|auto].
    + intros U t1. unfold upd. destruct (Nat.eqb_spec t1 t); [easy|auto].
    + intros P t1. destruct (a_down0 P t). congruence.
  - cbn [ev_step] in E. destruct (v_task s t) eqn:T; try discriminate. assert (E' : s' = mkEv (v_keys s) (v_unique s) (v_pool s) (v_ph s) (upd (v_task s) t TDone) (v_ev s) (v_next s) (v_pend s) (v_rf s) (v_de s) (GTrig t (v_ev s t) :: v_log s)) by (destruct (v_ph s); congruence). clear E. subst s'.
    destruct I. constructor; cbn [v_keys v_unique v_pool v_ph v_task v_ev v_next v_pend v_rf v_de v_log trigs In]; try easy.
    + intros t1. unfold upd. destruct (Nat.eqb_spec t1 t); [subst; rewrite <- a_fresh0; split; congruence|auto].
    + intros t1 g1 H. destruct (a_pend0 _ _ H). split; [easy|now right].
    + intros t1 k1 g1 [H|H]; [discriminate|eauto].
    + intros t1 k1 g1 k2 g2 [H|H] [H'|H']; try discriminate; eauto.
    + intros t1 k1 g1 [H|H]; [discriminate|]. destruct (a_sent0 _ _ _ H). split; [now right|easy].
    + intros t1. unfold upd. destruct (Nat.eqb_spec t1 t) as [->|N]; [split; [now left|easy]|]. rewrite a_done0. split; [now right|]. intros [H|H]; [congruence|easy].
    + intros t1 k1 [H|H]; [congruence|eauto].
    + constructor; [|easy]. intros H. apply trigs_in in H. destruct H as [k K]. pose proof (a_trig0 _ _ K) as ->. apply a_done0 in K. congruence.
    + intros t1 H. destruct (a_called0 t1 H) as [g' G]. exists g'. now right.
    + intros U t1. unfold upd. destruct (Nat.eqb_spec t1 t); [easy|auto].
    + intros P t1. destruct (a_down0 P t). congruence.
    + intros k [H|H]; [discriminate|auto].
Qed.

Definition plain (e : evlog) : bool := match e with GInit | GElems | GRunRet | GDestroyCall | GDestroyRet => false | _ => true end.
Lemma plain_since lg h : forallb plain lg = true -> since_init (lg ++ h) = lg ++ since_init h /\ before_elems (lg ++ h) = before_elems h /\ before_destroy (lg ++ h) = before_destroy h /\
  (finish_kept (lg ++ h) <-> finish_kept h) /\ (destroy_kept (lg ++ h) <-> destroy_kept h).
Proof. induction lg as [|e r IH]; [easy|]. cbn [forallb app]. intros H. apply andb_prop in H. destruct H as [H1 H2]. destruct (IH H2) as (A & B & C & D & F). destruct e; try discriminate H1; cbn [since_init before_elems before_destroy finish_kept destroy_kept app]; rewrite ?A, ?B, ?C, ?D, ?F; easy. Qed.
Lemma be_incl h : incl (before_elems h) h.
Proof. induction h as [|e r IH]; [easy|]. intros x X. destruct e; cbn in X; right; auto. Qed.
Lemma bd_incl h : incl (before_destroy h) h.
Proof. induction h as [|e r IH]; [easy|]. intros x X. destruct e; cbn in X; right; auto. Qed.
Lemma si_incl h : incl (since_init h) h.
Proof. induction h as [|e r IH]; [easy|]. intros x X. destruct e; cbn in X; try (destruct X as [<-|X]; [now left|right; auto]); easy. Qed.

Record einvB (s : evst) : Prop :=
  { b_keys : NoDup (v_keys s);
    b_cur : match v_ph s with PhRWait r cur | PhDWait r cur => NoDup (curkey cur ++ r) /\ (forall k w t, cur = Some (k, w) -> In t w -> t < v_next s) | _ => True end;
    b_got : match v_ph s with PhRWait r (Some (k, w)) => forall t, In t (v_rf s k) -> ready_fut (v_task s t) = true \/ In t w | _ => True end;
    b_nodrop : alive (v_ph s) = true -> forall t k g, In (GCall t k g) (since_init (v_log s)) -> v_task s t <> TDropped;
    b_rf : alive (v_ph s) = true -> forall t k, In (GCall t k RunFinish) (since_init (v_log s)) -> In (t, RunFinish) (v_pend s) \/ v_task s t = TDone \/ In t (v_rf s k);
    b_wait : match v_ph s with
             | PhRWait r cur => forall t k, In (GCall t k RunFinish) (since_init (v_log s)) -> In (GSent t k RunFinish) (before_elems (v_log s)) -> v_task s t = TDone \/ owed r cur (v_rf s) t k
             | _ => True end;
    b_de : alive (v_ph s) = true -> forall t k, In (GCall t k OnDestroy) (since_init (v_log s)) -> In (t, OnDestroy) (v_pend s) \/ In t (v_de s k);
    b_dwait : match v_ph s with
              | PhDWait r cur => forall t k, In (GCall t k OnDestroy) (since_init (v_log s)) -> In (GSent t k OnDestroy) (before_destroy (v_log s)) -> ready_fut (v_task s t) = true \/ owed r cur (v_de s) t k
              | _ => True end;
    b_log : finish_kept (v_log s);
    b_dlog : v_unique s = false -> destroy_kept (v_log s) }.
Lemma B_mono s s' lg : einvA s -> einvB s -> v_ph s' = v_ph s -> v_keys s' = v_keys s -> v_unique s' = v_unique s -> v_next s <= v_next s' -> v_log s' = lg ++ v_log s -> forallb plain lg = true ->
  (forall t, v_task s t = TDone -> v_task s' t = TDone) -> (forall t, ready_fut (v_task s t) = true -> ready_fut (v_task s' t) = true) -> (forall t, v_task s' t = TDropped -> v_task s t = TDropped) ->
  (forall k, incl (v_rf s k) (v_rf s' k)) -> (forall k, incl (v_de s k) (v_de s' k)) ->
  (forall t g, In (t, g) (v_pend s) -> In (t, g) (v_pend s') \/ (g = RunFinish -> In t (v_rf s' (v_ev s t))) /\ (g = OnDestroy -> In t (v_de s' (v_ev s t)))) ->
  (forall r k w, v_ph s = PhRWait r (Some (k, w)) -> incl (v_rf s' k) (v_rf s k)) ->
  (forall t k g, In (GCall t k g) lg -> v_task s' t <> TDropped /\ In (t, g) (v_pend s') /\ t = v_next s) -> einvB s'.
Proof.
  intros IA [Bk Bc Bg Bn Br Bw Bd Bdw Bl Bdl] PH K U N L Q T1 T2 T3 R D P LK C. destruct (plain_since lg (v_log s) Q) as (S1 & S2 & S3 & S4 & S5).
  assert (EVk : forall t k g, In (GCall t k g) (since_init (v_log s)) -> k = v_ev s t) by (intros t k g H; apply si_incl in H; now apply (a_call _ IA) in H).
  constructor; rewrite ?PH, ?K, ?U, ?L, ?S1, ?S2, ?S3, ?S4, ?S5; try easy.
  - destruct (v_ph s) as [| | |r cur| |r cur|]; try easy; destruct Bc as [B1 B2]; (split; [easy|]); intros k w t E H; specialize (B2 k w t E H); lia.
  - destruct (v_ph s) as [| | |r [[k w]|]| |r cur|]; try easy. intros t H. apply (LK r k w eq_refl) in H. destruct (Bg t H); auto.
  - intros AL t k g H. apply in_app_or in H. destruct H as [H|H]; [now apply C in H|]. intros X. apply T3 in X. now apply (Bn AL t k g).
  - intros AL t k H. apply in_app_or in H. destruct H as [H|H]; [left; now apply C in H|]. destruct (Br AL t k H) as [X|[X|X]]; [|right; left; auto|right; right; now apply R]. destruct (P _ _ X) as [Y|[Y _]]; [now left|]. right. right. rewrite (EVk t k _ H). auto.
  - assert (W : forall r cur t k, (forall t k, In (GCall t k RunFinish) (since_init (v_log s)) -> In (GSent t k RunFinish) (before_elems (v_log s)) -> v_task s t = TDone \/ owed r cur (v_rf s) t k) ->
      In (GCall t k RunFinish) (lg ++ since_init (v_log s)) -> In (GSent t k RunFinish) (before_elems (v_log s)) -> v_task s' t = TDone \/ owed r cur (v_rf s') t k).
    { intros r cur t k H H1 H2. apply in_app_or in H1. destruct H1 as [H1|H1].
      - apply C in H1. apply be_incl in H2. apply (a_sent _ IA) in H2. destruct H2 as [H2 _]. apply (a_call _ IA) in H2. lia.
      - destruct (H t k H1 H2) as [X|[[X Y]|X]]; [left; auto|right; left; split; [easy|now apply R]|right; right; easy]. }
    destruct (v_ph s); try easy. intros t k. now apply W.
  - intros AL t k H. apply in_app_or in H. destruct H as [H|H]; [left; now apply C in H|]. destruct (Bd AL t k H) as [X|X]; [|right; now apply D]. destruct (P _ _ X) as [Y|[_ Y]]; [now left|]. right. rewrite (EVk t k _ H). auto.
  - assert (W : forall r cur t k, (forall t k, In (GCall t k OnDestroy) (since_init (v_log s)) -> In (GSent t k OnDestroy) (before_destroy (v_log s)) -> ready_fut (v_task s t) = true \/ owed r cur (v_de s) t k) ->
      In (GCall t k OnDestroy) (lg ++ since_init (v_log s)) -> In (GSent t k OnDestroy) (before_destroy (v_log s)) -> ready_fut (v_task s' t) = true \/ owed r cur (v_de s') t k).
    { intros r cur t k H H1 H2. apply in_app_or in H1. destruct H1 as [H1|H1].
      - apply C in H1. apply bd_incl in H2. apply (a_sent _ IA) in H2. destruct H2 as [H2 _]. apply (a_call _ IA) in H2. lia.
      - destruct (H t k H1 H2) as [X|[[X Y]|X]]; [left; auto|right; left; split; [easy|now apply D]|right; right; easy]. }
    destruct (v_ph s); try easy. intros t k. now apply W.
Qed.
Lemma owed_clear r k lst t k' : NoDup (k :: r) -> owed r (Some (k, [])) lst t k' -> owed r None (upd lst k []) t k'.
Proof.
  intros N [[H1 H2]|(w & H1 & H2)]; [|injection H1 as <- <-; easy]. left. split; [easy|]. rewrite upd_other; [easy|]. intros ->. inversion N. contradiction.
Qed.
Lemma B_step s l s' : einvA s -> einvB s -> ev_step s l = ENext s' -> einvB s'.
Proof.
  intros IA IB E. destruct l as [| | | | | | |k sync g|t|t|t].
  - ev E. destruct IB. constructor; cbn [v_keys v_unique v_pool v_ph v_task v_ev v_next v_pend v_rf v_de v_log since_init finish_kept destroy_kept alive]; easy.
  - ev E. destruct IB. rewrite Heqe in *. constructor; cbn [v_keys v_unique v_pool v_ph v_task v_ev v_next v_pend v_rf v_de v_log alive]; easy.
  - ev E. destruct IB as [Bk Bc Bg Bn Br Bw Bd Bdw Bl Bdl]. rewrite Heqe in *. constructor; cbn [v_keys v_unique v_pool v_ph v_task v_ev v_next v_pend v_rf v_de v_log alive since_init before_elems before_destroy finish_kept destroy_kept curkey app]; try easy.
    + intros _ t k g [H|H]; [discriminate|eauto].
    + intros _ t k [H|H]; [discriminate|eauto].
    + intros t k [H|H] S; [discriminate|]. destruct (a_sent _ IA _ _ _ S) as [S1 S2]. destruct (Br eq_refl t k H) as [X|[X|X]]; [apply in_fst in X; contradiction|now left|]. right. left. split; [|easy]. now apply (a_call _ IA) in S1.
    + intros _ t k [H|H]; [discriminate|eauto].
  - cbn [ev_step] in E. destruct (v_ph s) as [| | |r cur| |r cur|] eqn:PH; try discriminate.
    + destruct IB as [Bk Bc Bg Bn Br Bw Bd Bdw Bl Bdl]. rewrite PH in *. destruct Bc as [Bc1 Bc2].
      assert (ND : forall t k, In (GCall t k RunFinish) (since_init (v_log s)) -> ready_fut (v_task s t) = true -> v_task s t = TDone).
      { intros t k H X. specialize (Bn eq_refl t k _ H). destruct (v_task s t); try discriminate; congruence. }
      destruct cur as [[k [|t w]]|]; [| |destruct r as [|k r]].
      * assert (E' : s' = mkEv (v_keys s) (v_unique s) (v_pool s) (PhRWait r None) (v_task s) (v_ev s) (v_next s) (v_pend s) (upd (v_rf s) k []) (v_de s) (v_log s)) by (destruct r; congruence). subst s'. clear E.
        constructor; cbn [v_keys v_unique v_pool v_ph v_task v_ev v_next v_pend v_rf v_de v_log alive curkey app]; try easy.
        -- split; [now inversion Bc1|easy].
        -- intros _ t k' H. destruct (Br eq_refl t k' H) as [X|[X|X]]; auto. destruct (Nat.eq_dec k' k) as [->|NK]; [|rewrite upd_other by easy; auto]. right. left. destruct (Bg t X) as [Y|[]]. eapply ND; eauto.
        -- intros t k' H1 H2. destruct (Bw t k' H1 H2) as [X|X]; [now left|right]. now apply owed_clear.
      * assert (E' : (if ready_fut (v_task s t) then ENext (with_ph s (PhRWait r (Some (k, w))) []) else ENo) = ENext s') by (destruct r; easy). clear E. destruct (ready_fut (v_task s t)) eqn:F; [|discriminate]. injection E' as <-.
        constructor; cbn [with_ph v_keys v_unique v_pool v_ph v_task v_ev v_next v_pend v_rf v_de v_log alive curkey app]; try easy.
        -- split; [easy|]. intros k' w' t' X H. injection X as <- <-. apply (Bc2 k (t :: w)); [easy|now right].
        -- intros t' H. destruct (Bg t' H) as [X|[<-|X]]; auto.
        -- intros t' k' H1 H2. destruct (Bw t' k' H1 H2) as [X|[X|(w' & X & Y)]]; [now left|right; now left|]. injection X as <- <-. destruct Y as [<-|Y]; [left; eapply ND; eauto|]. right. right. now exists w.
      * injection E as <-. constructor; cbn [with_ph v_keys v_unique v_pool v_ph v_task v_ev v_next v_pend v_rf v_de v_log alive since_init before_elems before_destroy finish_kept destroy_kept curkey app]; try easy.
        -- intros _ t k g [H|H]; [discriminate|eauto].
        -- intros _ t k [H|H]; [discriminate|eauto].
        -- intros _ t k [H|H]; [discriminate|eauto].
        -- split; [|easy]. intros t k H1 H2. destruct (Bw t k H1 H2) as [X|[[[] _]|(w & X & _)]]; [|discriminate]. apply si_incl in H1. apply (a_call _ IA) in H1. destruct H1 as (_ & -> & _). now apply (a_done _ IA).
      * injection E as <-. constructor; cbn [with_ph v_keys v_unique v_pool v_ph v_task v_ev v_next v_pend v_rf v_de v_log alive curkey app]; try easy.
        -- split; [easy|]. intros k' w' t X H. injection X as <- <-. now apply (a_rf _ IA k).
        -- intros t H. now right.
        -- intros t k' H1 H2. destruct (Bw t k' H1 H2) as [X|[[[<-|X] Y]|(w & X & _)]]; [now left| | |discriminate]; right; [right; now exists (v_rf s k)|now left].
    + destruct IB as [Bk Bc Bg Bn Br Bw Bd Bdw Bl Bdl]. rewrite PH in *. destruct Bc as [Bc1 Bc2].
      destruct cur as [[k [|t w]]|]; [| |destruct r as [|k r]].
      * assert (E' : s' = mkEv (v_keys s) (v_unique s) (v_pool s) (PhDWait r None) (v_task s) (v_ev s) (v_next s) (v_pend s) (upd (v_rf s) k []) (upd (v_de s) k []) (v_log s)) by (destruct r; congruence). subst s'. clear E.
        constructor; cbn [v_keys v_unique v_pool v_ph v_task v_ev v_next v_pend v_rf v_de v_log alive curkey app]; try easy.
        -- split; [now inversion Bc1|easy].
        -- intros t k' H1 H2. destruct (Bdw t k' H1 H2) as [X|X]; [now left|right]. now apply owed_clear.
      * assert (E' : (if ready_fut (v_task s t) then ENext (with_ph s (PhDWait r (Some (k, w))) []) else ENo) = ENext s') by (destruct r; easy). clear E. destruct (ready_fut (v_task s t)) eqn:F; [|discriminate]. injection E' as <-.
        constructor; cbn [with_ph v_keys v_unique v_pool v_ph v_task v_ev v_next v_pend v_rf v_de v_log alive curkey app]; try easy.
        -- split; [easy|]. intros k' w' t' X H. injection X as <- <-. apply (Bc2 k (t :: w)); [easy|now right].
        -- intros t' k' H1 H2. destruct (Bdw t' k' H1 H2) as [X|[X|(w' & X & Y)]]; [now left|right; now left|]. injection X as <- <-. destruct Y as [<-|Y]; [now left|]. right. right. now exists w.
      * injection E as <-. constructor; cbn [with_ph v_keys v_unique v_pool v_ph v_task v_ev v_next v_pend v_rf v_de v_log alive since_init before_elems before_destroy finish_kept destroy_kept curkey app]; try easy.
        intros U. split; [|now apply Bdl]. intros t k H1 H2. destruct (Bdw t k H1 H2) as [X|[[[] _]|(w & X & _)]]; [|discriminate]. apply si_incl in H1. apply (a_call _ IA) in H1. destruct H1 as (_ & -> & _). apply (a_done _ IA). pose proof (a_drop _ IA U t). destruct (v_task s t); easy.
      * injection E as <-. constructor; cbn [with_ph v_keys v_unique v_pool v_ph v_task v_ev v_next v_pend v_rf v_de v_log alive curkey app]; try easy.
        -- split; [easy|]. intros k' w' t X H. injection X as <- <-. now apply (a_de _ IA k).
        -- intros t k' H1 H2. destruct (Bdw t k' H1 H2) as [X|[[[<-|X] Y]|(w & X & _)]]; [now left| | |discriminate]; right; [right; now exists (v_de s k)|now left].
  - ev E. destruct IB as [Bk Bc Bg Bn Br Bw Bd Bdw Bl Bdl]. rewrite Heqe in *. constructor; cbn [v_keys v_unique v_pool v_ph v_task v_ev v_next v_pend v_rf v_de v_log alive since_init before_elems before_destroy finish_kept destroy_kept curkey app]; try easy.
    + intros _ t k g [H|H]; [discriminate|eauto].
    + intros _ t k [H|H]; [discriminate|eauto].
    + intros _ t k [H|H]; [discriminate|eauto].
  - cbn [ev_step] in E. destruct (v_ph s) eqn:PH; try discriminate. destruct IB as [Bk Bc Bg Bn Br Bw Bd Bdw Bl Bdl]. rewrite PH in *.
    assert (W : forall t k, In (GCall t k OnDestroy) (since_init (v_log s)) -> In (GSent t k OnDestroy) (before_destroy (v_log s)) -> owed (v_keys s) None (v_de s) t k).
    { intros t k H1 H2. apply bd_incl in H2. destruct (a_sent _ IA _ _ _ H2) as [S1 S2]. destruct (Bd eq_refl t k H1) as [X|X]; [apply in_fst in X; contradiction|]. left. split; [|easy]. now apply (a_call _ IA) in S1. }
    destruct (v_unique s) eqn:U.
    + destruct (existsb _ _); [discriminate|]. injection E as <-. constructor; cbn [with_ph v_keys v_unique v_pool v_ph v_task v_ev v_next v_pend v_rf v_de v_log alive curkey app]; try easy. intros t k H1 H2. right. now apply W.
    + injection E as <-. constructor; cbn [with_ph v_keys v_unique v_pool v_ph v_task v_ev v_next v_pend v_rf v_de v_log alive curkey app]; try easy; [|intros _; now apply Bdl]. intros t k H1 H2. right. now apply W.
  - ev E; destruct IB; constructor; cbn [v_keys v_unique v_pool v_ph v_task v_ev v_next v_pend v_rf v_de v_log since_init finish_kept destroy_kept alive]; easy.
  - cbn [ev_step] in E. assert (E' : (if memb k (v_keys s) then if sync then ENext (with_ph s (v_ph s) [GSync k]) else if v_pool s then
              ENext (mkEv (v_keys s) (v_unique s) (v_pool s) (v_ph s) (upd (v_task s) (v_next s) TQueued) (upd (v_ev s) (v_next s) k) (S (v_next s)) ((v_next s, g) :: v_pend s) (v_rf s) (v_de s) (GCall (v_next s) k g :: v_log s)) else EUB
            else ENext (with_ph s (v_ph s) [GErr k])) = ENext s') by (destruct (v_ph s); easy). clear E.
    destruct (memb k (v_keys s)) eqn:M; [|injection E' as <-; apply (B_mono s _ [GErr k]); cbn [with_ph v_keys v_unique v_pool v_ph v_task v_ev v_next v_pend v_rf v_de v_log]; try easy; try (intros; apply incl_refl); [intros t g' H; now left|intros t k' g' [H|[]]; discriminate]].
    destruct sync; [injection E' as <-; apply (B_mono s _ [GSync k]); cbn [with_ph v_keys v_unique v_pool v_ph v_task v_ev v_next v_pend v_rf v_de v_log]; try easy; try (intros; apply incl_refl); [intros t g' H; now left|intros t k' g' [H|[]]; discriminate]|].
    destruct (v_pool s) eqn:PL; [|discriminate]. injection E' as <-. 
    assert (NT : v_task s (v_next s) = TNot) by (destruct (v_task s (v_next s)) eqn:X; [easy| | | |]; assert (v_next s < v_next s) by (apply (a_fresh _ IA); congruence); lia).
    apply (B_mono s _ [GCall (v_next s) k g]); cbn [v_keys v_unique v_pool v_ph v_task v_ev v_next v_pend v_rf v_de v_log]; try easy; try (intros; apply incl_refl); try lia.
    + intros t H. rewrite upd_other; congruence.
    + intros t H. rewrite upd_other; [easy|]. intros ->. rewrite NT in H. discriminate.
    + intros t. unfold upd. destruct (Nat.eqb t (v_next s)); easy.
    + intros t g' H. left. now right.
    + intros t k' g' [H|[]]. injection H as <- <- <-. rewrite upd_same. split; [easy|]. split; [now left|easy].
  - cbn [ev_step] in E. destruct (find _ (v_pend s)) as [[t' g]|] eqn:F; [|discriminate]. apply find_pend in F. cbn in F. destruct F as [F1 F2]. subst t'.
    assert (E' : (if locked (v_ph s) (v_ev s t) g then ENo else ENext (mkEv (v_keys s) (v_unique s) (v_pool s) (v_ph s) (v_task s) (v_ev s) (v_next s) (filter (fun p => negb (Nat.eqb (fst p) t)) (v_pend s))
                          (if strat_eqb g RunFinish then upd (v_rf s) (v_ev s t) (v_rf s (v_ev s t) ++ [t]) else v_rf s) (if strat_eqb g OnDestroy then upd (v_de s) (v_ev s t) (v_de s (v_ev s t) ++ [t]) else v_de s)
                          (GSent t (v_ev s t) g :: v_log s))) = ENext s') by (destruct (v_ph s); easy). clear E. destruct (locked _ _ _) eqn:LK; [discriminate|]. injection E' as <-.
    assert (UI : forall (f : nat -> list nat) k, incl (f k) (upd f (v_ev s t) (f (v_ev s t) ++ [t]) k)) by (intros f k; unfold upd; destruct (Nat.eqb_spec k (v_ev s t)) as [->|]; [apply incl_appl|]; apply incl_refl).
    apply (B_mono s _ [GSent t (v_ev s t) g]); cbn [v_keys v_unique v_pool v_ph v_task v_ev v_next v_pend v_rf v_de v_log]; try easy; try lia.
    + intros k. destruct (strat_eqb g RunFinish); [apply UI|apply incl_refl].
    + intros k. destruct (strat_eqb g OnDestroy); [apply UI|apply incl_refl].
    + intros t1 g1 H. destruct (Nat.eq_dec t1 t) as [->|N].
      * right. assert (g1 = g) by (apply (a_pend _ IA) in H; apply (a_pend _ IA) in F1; eapply (a_one _ IA); [apply H|apply F1]). subst g1. split; intros ->; cbn; rewrite upd_same; apply in_or_app; right; now left.
      * left. apply filter_In. split; [easy|]. cbn. destruct (Nat.eqb_spec t1 t); easy.
    + intros r k w PH. rewrite PH in LK. destruct g; cbn in LK |- *; try apply incl_refl. apply Nat.eqb_neq in LK. rewrite upd_other by congruence. apply incl_refl.
    + intros t1 k1 g1 [H|[]]. discriminate.
  - cbn [ev_step] in E. destruct (v_task s t) eqn:T; try discriminate. assert (E' : s' = mkEv (v_keys s) (v_unique s) (v_pool s) (v_ph s) (upd (v_task s) t TRunning) (v_ev s) (v_next s) (v_pend s) (v_rf s) (v_de s) (v_log s)) by (destruct (v_ph s); congruence). clear E. subst s'.
    apply (B_mono s _ []); cbn [v_keys v_unique v_pool v_ph v_task v_ev v_next v_pend v_rf v_de v_log]; try easy; try (intros; apply incl_refl).
    + intros t1 H. rewrite upd_other; congruence.
    + intros t1 H. rewrite upd_other; [easy|]. intros ->. rewrite T in H. discriminate.
    + intros t1. unfold upd. destruct (Nat.eqb t1 t); easy.
    + intros t1 g1 H. now left.
  - cbn [ev_step] in E. destruct (v_task s t) eqn:T; try discriminate. assert (E' : s' = mkEv (v_keys s) (v_unique s) (v_pool s) (v_ph s) (upd (v_task s) t TDone) (v_ev s) (v_next s) (v_pend s) (v_rf s) (v_de s) (GTrig t (v_ev s t) :: v_log s)) by (destruct (v_ph s); congruence). clear E. subst s'.
    apply (B_mono s _ [GTrig t (v_ev s t)]); cbn [v_keys v_unique v_pool v_ph v_task v_ev v_next v_pend v_rf v_de v_log]; try easy; try (intros; apply incl_refl).
    + intros t1 H. unfold upd. destruct (Nat.eqb t1 t); easy.
    + intros t1 H. unfold upd. destruct (Nat.eqb t1 t); easy.
    + intros t1. unfold upd. destruct (Nat.eqb t1 t); easy.
    + intros t1 g1 H. now left.
    + intros t1 k1 g1 [H|[]]. discriminate.
Qed.
Lemma B_new keys u : NoDup keys -> einvB (ev_new keys u).
Proof. intros H. constructor; cbn; easy. Qed.
Lemma AB_run : forall ls s s', einvA s -> einvB s -> ev_run s ls = ENext s' -> einvA s' /\ einvB s'.
Proof. induction ls as [|l r IH]; intros s s' A B E; cbn [ev_run] in E; [now injection E as <-|]. destruct (ev_step s l) as [s1| |] eqn:E1; try discriminate. apply (IH s1); [eapply A_step; eauto|eapply B_step; eauto|easy]. Qed.
Lemma unique_run : forall ls s s', ev_run s ls = ENext s' -> v_unique s' = v_unique s /\ v_keys s' = v_keys s.
Proof.
  induction ls as [|l r IH]; intros s s' E; cbn [ev_run] in E; [now injection E as <-|]. destruct (ev_step s l) as [s1| |] eqn:E1; try discriminate. specialize (IH s1 s' E). destruct IH as [-> ->]. clear E.
  destruct l; ev E1; easy.
Qed.
Lemma log_run : forall ls s s', ev_run s ls = ENext s' -> exists e, v_log s' = e ++ v_log s.
Proof.
  induction ls as [|l r IH]; intros s s' E; cbn [ev_run] in E; [injection E as <-; now exists []|]. destruct (ev_step s l) as [s1| |] eqn:E1; try discriminate. specialize (IH s1 s' E). destruct IH as [e ->]. clear E.
  assert (X : exists x, v_log s1 = x ++ v_log s) by (destruct l; ev E1; ((exists []; reflexivity) || (eexists [_]; reflexivity))). destruct X as [x ->]. exists (e ++ x). now rewrite app_assoc.
Qed.

(** C28: a notification that names no event is refused and does nothing else; notifications are refused only then. *)
Theorem C28_unknown : forall s k sync g, v_ph s <> PhGone -> ~ In k (v_keys s) -> exists s', ev_step s (VNotify k sync g) = ENext s' /\ v_log s' = GErr k :: v_log s /\
  v_task s' = v_task s /\ v_next s' = v_next s /\ v_pend s' = v_pend s /\ v_ph s' = v_ph s.
Proof. intros s k sync g P H. apply memb_false in H. cbn [ev_step]. rewrite H. destruct (v_ph s) eqn:PH; try easy; eexists; (split; [reflexivity|]); unfold with_ph; cbn; rewrite ?PH; easy. Qed.
Theorem C28_refused : forall keys u ls s k, NoDup keys -> ev_run (ev_new keys u) ls = ENext s -> In (GErr k) (v_log s) -> ~ In k keys.
Proof. intros keys u ls s k N E H. destruct (AB_run ls _ s (A_new keys u) (B_new keys u N) E) as [A _]. apply (a_err _ A) in H. apply unique_run in E. destruct E as [_ K]. cbn in K. now rewrite <- K. Qed.
(** C28: an asynchronous notification makes one task, which triggers the event it named, at most once, and exactly once as soon as it is done; it is waiting, being executed or done, unless the pipeline's own pool
    was deleted while it waited. A synchronous one triggers before it returns. *)
Theorem C28_once : forall keys u ls s, NoDup keys -> ev_run (ev_new keys u) ls = ENext s ->
  (forall t k g, In (GCall t k g) (v_log s) -> In k keys /\ match v_task s t with
     | TDone => count_occ Nat.eq_dec (trigs (v_log s)) t = 1 /\ In (GTrig t k) (v_log s)
     | TQueued | TRunning => count_occ Nat.eq_dec (trigs (v_log s)) t = 0
     | TDropped => u = true /\ count_occ Nat.eq_dec (trigs (v_log s)) t = 0
     | TNot => False end) /\
  (forall t k, In (GTrig t k) (v_log s) -> exists g, In (GCall t k g) (v_log s)) /\
  (forall k g, In k keys -> v_ph s <> PhGone -> exists s', ev_step s (VNotify k true g) = ENext s' /\ v_log s' = GSync k :: v_log s).
Proof.
  intros keys u ls s N E. destruct (AB_run ls _ s (A_new keys u) (B_new keys u N) E) as [A _]. apply unique_run in E. destruct E as [U K]. cbn in U, K.
  assert (NO : forall t, v_task s t <> TDone -> count_occ Nat.eq_dec (trigs (v_log s)) t = 0).
  { intros t H. apply count_occ_not_In. intros X. apply trigs_in in X. destruct X as [k X]. pose proof (a_trig _ A _ _ X) as ->. apply (a_done _ A) in X. contradiction. }
  split; [|split].
  - intros t k g H. destruct (a_call _ A _ _ _ H) as (H1 & H2 & H3). rewrite <- K. split; [easy|]. apply (a_fresh _ A) in H1. destruct (v_task s t) eqn:T; [easy|apply NO; congruence|apply NO; congruence| |].
    + assert (G : In (GTrig t k) (v_log s)) by (rewrite H2; now apply (a_done _ A)). split; [|easy]. apply NoDup_count_occ'; [apply (a_once _ A)|]. apply trigs_in. now exists k.
    + split; [|apply NO; congruence]. destruct u; [easy|]. exfalso. now apply (a_drop _ A U t).
  - intros t k H. pose proof (a_trig _ A _ _ H) as ->. apply (a_called _ A). apply (a_fresh _ A). apply (a_done _ A) in H. congruence.
  - intros k g H P. assert (M : memb k (v_keys s) = true) by (apply memb_in; now rewrite K). cbn [ev_step]. rewrite M. destruct (v_ph s); try easy; eexists; split; reflexivity.
Qed.
(** C28: whenever run returns, all run-finish notifications whose call had returned when the elements ended have been executed. *)
Theorem C28_run_finish : forall keys u ls s, NoDup keys -> ev_run (ev_new keys u) ls = ENext s -> forall a b, v_log s = a ++ GRunRet :: b ->
  forall t k, In (GCall t k RunFinish) (since_init b) -> In (GSent t k RunFinish) (before_elems b) -> In (GTrig t k) b.
Proof.
  intros keys u ls s N E a b L. destruct (AB_run ls _ s (A_new keys u) (B_new keys u N) E) as [_ B]. pose proof (b_log _ B) as F. rewrite L in F. clear - F.
  assert (G : finish_kept (GRunRet :: b)) by (induction a as [|e r IH]; [easy|]; apply IH; destruct e; cbn in F; easy). apply G.
Qed.
(** C28: while run waits for events it can always go on, or the pool can execute one of the triggers; nothing else is needed. *)
Theorem C28_waits : forall keys u ls s r cur, NoDup keys -> ev_run (ev_new keys u) ls = ENext s -> v_ph s = PhRWait r cur ->
  exists l s', (l = VWait \/ exists t, l = VStart t \/ l = VFinish t) /\ ev_step s l = ENext s'.
Proof.
  intros keys u ls s r cur N E PH. destruct (AB_run ls _ s (A_new keys u) (B_new keys u N) E) as [A B]. pose proof (b_cur _ B) as C. rewrite PH in C. destruct C as [_ C].
  destruct cur as [[k [|t w]]|]; [exists VWait; cbn [ev_step]; rewrite PH; destruct r; eexists; split; auto; reflexivity| |exists VWait; cbn [ev_step]; rewrite PH; destruct r; eexists; split; auto; reflexivity].
  specialize (C k (t :: w) t eq_refl (or_introl eq_refl)). apply (a_fresh _ A) in C. destruct (v_task s t) eqn:T; [easy| | | |].
  - exists (VStart t). cbn [ev_step]. rewrite T, PH. eexists. split; [right; exists t; now left|reflexivity].
  - exists (VFinish t). cbn [ev_step]. rewrite T, PH. eexists. split; [right; exists t; now right|reflexivity].
  - exists VWait. cbn [ev_step]. rewrite PH, T. destruct r; eexists; split; auto; reflexivity.
  - exists VWait. cbn [ev_step]. rewrite PH, T. destruct r; eexists; split; auto; reflexivity.
Qed.
Definition c28_ls : list evlabel := [VInit; VRun; VNotify 7 false RunFinish; VNotify 8 true NoWait; VNotify 9 false RunFinish; VStart 0; VStore 0; VElems; VWait; VWait; VFinish 0; VWait; VWait; VWait; VWait].
Example C28_case : NoDup [8; 7] /\ exists s, ev_run (ev_new [8; 7] true) c28_ls = ENext s /\
  v_log s = [GRunRet; GTrig 0 7; GElems; GSent 0 7 RunFinish; GErr 9; GSync 8; GCall 0 7 RunFinish; GInit].
Proof. split; [repeat constructor; cbn; intuition discriminate|]. eexists. split; [vm_compute; reflexivity|]. easy. Qed.

(** C79: false for a pipeline with a pool of its own (the default): for every event, a notification with the destroy strategy whose task still waits when destroy is called is dropped, and destroy returns. *)
Theorem C79_refuted : forall k, exists ls s, ev_run (ev_new [k] true) ls = ENext s /\ exists b, v_log s = GDestroyRet :: b /\
  In (GCall 0 k OnDestroy) (since_init b) /\ In (GSent 0 k OnDestroy) (before_destroy b) /\ trigs (v_log s) = [] /\
  forall ls' s', ev_run s ls' = ENext s' -> ~ In 0 (trigs (v_log s')).
Proof.
  intros k. exists [VInit; VRun; VNotify k false OnDestroy; VStore 0; VElems; VWait; VWait; VWait; VDestroy; VPoolDown; VWait; VWait; VWait; VWait].
  eexists. split; [cbn; rewrite Nat.eqb_refl; cbn; rewrite ?Nat.eqb_refl; cbn; unfold upd; cbn; rewrite ?Nat.eqb_refl; cbn; reflexivity|]. eexists. split; [reflexivity|]. cbn. do 3 (split; [auto 20|]).
  intros ls' s'. match goal with |- ev_run ?z _ = _ -> _ => assert (D : v_task z 0 = TDropped) by reflexivity; assert (T : ~ In 0 (trigs (v_log z))) by (cbn; tauto); assert (P : 0 < v_next z) by (cbn; lia); revert D T P; generalize z end. clear.
  revert s'. induction ls' as [|l r IH]; intros s' s D T P E; cbn [ev_run] in E; [now injection E as <-|]. destruct (ev_step s l) as [s1| |] eqn:E1; try discriminate.
  assert (G : v_task s1 0 = TDropped /\ ~ In 0 (trigs (v_log s1)) /\ 0 < v_next s1); [|destruct G as (G1 & G2 & G3); now apply (IH s' s1)]. clear IH E.
  destruct l as [| | | | | | |k0 sync g|t|t|t]; cbn [ev_step] in E1.
  1-7: repeat match type of E1 with context [match ?x with _ => _ end] => destruct x eqn:?; try discriminate end; injection E1 as <-; unfold with_ph; cbn [v_task v_log v_next trigs app]; rewrite ?D; easy.
  - repeat match type of E1 with context [match ?x with _ => _ end] => destruct x eqn:?; try discriminate end; injection E1 as <-; unfold with_ph; cbn [v_task v_log v_next trigs app]; rewrite ?upd_other by lia; (split; [easy|]); (split; [easy|]); lia.
  - repeat match type of E1 with context [match ?x with _ => _ end] => destruct x eqn:?; try discriminate end; injection E1 as <-; easy.
  - destruct (Nat.eq_dec t 0) as [->|Z]; [rewrite D in E1; discriminate|]. repeat match type of E1 with context [match ?x with _ => _ end] => destruct x eqn:?; try discriminate end; injection E1 as <-; cbn [v_task v_log v_next trigs]; rewrite ?upd_other by lia; easy.
  - destruct (Nat.eq_dec t 0) as [->|Z]; [rewrite D in E1; discriminate|]. repeat match type of E1 with context [match ?x with _ => _ end] => destruct x eqn:?; try discriminate end; injection E1 as <-; cbn [v_task v_log v_next trigs In]; rewrite ?upd_other by lia; (split; [easy|]); (split; [|easy]); (intros [X|X]; [lia|easy]).
Qed.
(** C79 (the part that holds): with a shared pool, all notifications with the destroy strategy that had returned when destroy was called have been executed when it returns. With a pool of its own,
    nothing of the pipeline is executed any more once destroy has returned: each trigger is done or dropped. *)
Theorem C79_partial : forall keys ls s, NoDup keys -> ev_run (ev_new keys false) ls = ENext s -> forall a b, v_log s = a ++ GDestroyRet :: b ->
  forall t k, In (GCall t k OnDestroy) (since_init b) -> In (GSent t k OnDestroy) (before_destroy b) -> In (GTrig t k) b.
Proof.
  intros keys ls s N E a b L. destruct (AB_run ls _ s (A_new keys false) (B_new keys false N) E) as [_ B]. apply unique_run in E. destruct E as [U _]. pose proof (b_dlog _ B U) as F. rewrite L in F. clear - F.
  assert (G : destroy_kept (GDestroyRet :: b)) by (induction a as [|e r IH]; [easy|]; apply IH; destruct e; cbn in F; easy). apply G.
Qed.
Example C79_case : exists s, ev_run (ev_new [3] false) [VInit; VRun; VNotify 3 false OnDestroy; VStore 0; VElems; VWait; VWait; VWait; VDestroy; VPoolDown; VWait; VStart 0; VFinish 0; VWait; VWait; VWait] = ENext s /\
  v_log s = [GDestroyRet; GTrig 0 3; GDestroyCall; GRunRet; GElems; GSent 0 3 OnDestroy; GCall 0 3 OnDestroy; GInit].
Proof. eexists. split; [vm_compute; reflexivity|]. easy. Qed.

(** C80: false with a shared pool: whatever the strategy, there is an orderly history (init, run, destroy, delete) in which the trigger is called on the deleted event: for NoWait always possible, for RunFinish if the notification is sent outside a run. *)
Definition orderly : list evlabel := [VDestroy; VPoolDown; VWait; VWait; VWait; VDelete].
Theorem C80_refuted : forall k, ev_run (ev_new [k] false) ([VInit; VRun; VNotify k false NoWait; VStore 0; VElems; VWait; VWait; VWait] ++ orderly ++ [VStart 0]) = EUB /\
  ev_run (ev_new [k] false) ([VInit; VNotify k false RunFinish; VStore 0] ++ orderly ++ [VStart 0]) = EUB.
Proof. intros k. split; unfold orderly; cbn; rewrite ?Nat.eqb_refl; cbn; unfold upd; cbn; rewrite ?Nat.eqb_refl; cbn; reflexivity. Qed.
(** C80 (the part that holds): with a pool of its own, once destroy has returned no trigger is executed on the deleted events; and with any pool none is if every trigger is done when the pipeline is deleted. *)
Theorem C80_partial : forall keys u ls s, NoDup keys -> ev_run (ev_new keys u) ls = ENext s -> (u = true /\ v_ph s = PhOff) \/ (forall t, t < v_next s -> ready_fut (v_task s t) = true) ->
  forall t, ev_run s [VDelete; VStart t] <> EUB /\ ev_run s [VDelete; VFinish t] <> EUB.
Proof.
  intros keys u ls s N E H t. destruct (AB_run ls _ s (A_new keys u) (B_new keys u N) E) as [A B].
  assert (R : v_task s t <> TQueued /\ v_task s t <> TRunning).
  { destruct H as [[-> P]|H].
    - assert (PL : v_pool s = false); [|now apply (a_down _ A)].
      assert (G : forall ls z, ev_run (ev_new keys true) ls = ENext z -> match v_ph z with PhOff | PhDWait _ _ => v_pool z = false | _ => True end).
      { clear. intros ls. assert (I : match v_ph (ev_new keys true) with PhOff | PhDWait _ _ => v_pool (ev_new keys true) = false | _ => True end) by reflexivity. assert (U : v_unique (ev_new keys true) = true) by reflexivity. revert I U. generalize (ev_new keys true) as x.
        induction ls as [|l r IH]; intros x I U z E; cbn [ev_run] in E; [now injection E as <-|]. destruct (ev_step x l) as [x1| |] eqn:E1; try discriminate. apply (IH x1); [| |easy]; clear IH E; destruct l; ev E1; rewrite ?U in *; easy. }
      specialize (G ls s E). now rewrite P in G.
    - destruct (v_task s t) eqn:T; split; try easy; assert (L : t < v_next s) by (apply (a_fresh _ A); congruence); apply H in L; rewrite T in L; discriminate. }
  cbn [ev_run ev_step]. destruct (v_ph s); cbn; try easy; destruct (v_task s t); easy.
Qed.
Example C80_case : exists s, ev_run (ev_new [3] true) ([VInit; VNotify 3 false NoWait; VStore 0; VDestroy; VPoolDown; VWait; VWait; VWait]) = ENext s /\ v_ph s = PhOff /\ v_task s 0 = TDropped.
Proof. eexists. split; [vm_compute; reflexivity|]. easy. Qed.
Print Assumptions C28_unknown. Print Assumptions C28_refused. Print Assumptions C28_once. Print Assumptions C28_run_finish. Print Assumptions C28_waits.
Print Assumptions C79_refuted. Print Assumptions C79_partial. Print Assumptions C80_refuted. Print Assumptions C80_partial.
