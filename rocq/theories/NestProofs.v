(** The invariant of nested groups on one pool. *)
From Verif Require Export NestSpec.
From Coq Require Import Lia.
Local Open Scope nat_scope.
Local Open Scope list_scope.

Definition has (s : nst) (o : nop) : Prop := exists t, In o (n_prog s t).
Definition queued (s : nst) (e : nat) : Prop := In e (map snd (n_q s)).
Definition eop (o : nop) : nat := match o with Run e | Wait e | End e => e end.
Definition live (s : nst) (e : nat) : Prop := queued s e \/ has s (Run e) \/ In e (n_begun s).
Definition about (o : nop) : option nat := match o with Run e | End e => Some e | Wait _ => None end.
Definition end_ok (p : plan) (dn : list nat) (A : list nop) (e : nat) : Prop :=
  match e_kind p e with
  | KNode => True
  | KSeq => forall c, In c (e_kids p e) -> In c dn \/ In (Run c) A \/ In (End c) A
  | KPar => In (Wait e) A \/ forall c, In c (e_kids p e) -> In c dn
  end.
Definition wait_ok (p : plan) (begun : list nat) (h : nat) (B : list nop) : Prop :=
  forall o c, In o B -> about o = Some c -> c <> e_root p -> e_kind p (e_par p c) = KPar -> before begun (e_par p c) h.
Record ninv (p : plan) (W : nat) (s : nst) : Prop := {
  v_one : forall t t' o, In o (n_prog s t) -> In o (n_prog s t') -> t = t';
  v_nd : forall t, NoDup (n_prog s t);
  v_q : NoDup (map snd (n_q s));
  v_all : forall e, live s e -> In e (e_all p);
  v_qrun : forall e, queued s e -> ~ has s (Run e) /\ ~ In e (n_begun s);
  v_run : forall e, has s (Run e) -> ~ In e (n_begun s);
  v_end : forall e, has s (End e) <-> In e (n_begun s) /\ ~ In e (n_done s);
  v_done : forall e, In e (n_done s) -> In e (n_begun s);
  v_wait : forall g, has s (Wait g) -> In g (n_begun s) /\ e_kind p g = KPar /\ ~ In g (n_over s);
  v_b : NoDup (n_begun s); v_d : NoDup (n_done s); v_o : NoDup (n_over s); v_t : NoDup (n_taken s);
  v_over : forall g, In g (n_over s) -> In g (n_begun s);
  v_taken : forall e, In e (n_taken s) -> has s (Run e) \/ In e (n_begun s);
  v_rel : forall e, live s e -> e = e_root p \/ (In (e_par p e) (n_begun s) /\ In e (e_kids p (e_par p e)) /\ (e_kind p (e_par p e) = KPar -> forall d, In d (e_dep p e) -> In d (n_done s)));
  v_par : forall g c, e_kind p g = KPar -> In g (n_begun s) -> In c (e_kids p g) -> (forall d, In d (e_dep p c) -> In d (n_done s)) -> live s c;
  v_ends : forall t A e B, n_prog s t = A ++ End e :: B -> end_ok p (n_done s) A e;
  v_kids : forall g c, In g (n_done s) -> In c (e_kids p g) -> In c (n_done s);
  v_waits : forall t A h B, n_prog s t = A ++ Wait h :: B -> wait_ok p (n_begun s) h B;
  v_main : forall t o, In o (n_prog s t) -> eop o = e_root p -> t = 0;
  v_rootq : ~ queued s (e_root p);
  v_root : has s (Run (e_root p)) \/ In (e_root p) (n_begun s);
  v_idle : forall t, W < t -> n_prog s t = [] }.

Lemma ninv_init p W : plan_ok p -> ninv p W (n_init p).
Proof.
  intros K. assert (H : forall t o, In o (n_prog (n_init p) t) -> t = 0 /\ o = Run (e_root p)).
  { intros t o. cbn [n_init n_prog]. destruct (Nat.eqb_spec t 0); [intros [<-|[]]; auto|intros []]. }
  assert (HH : forall o, has (n_init p) o -> o = Run (e_root p)) by (intros o [t I]; apply (H t o I)).
  assert (L : forall e, live (n_init p) e -> e = e_root p) by (intros e [[]|[X|[]]]; apply HH in X; congruence).
  split; cbn [n_init n_q n_begun n_done n_over n_taken].
  - intros t t' o A B. apply H in A, B. destruct A, B. congruence.
  - intros t. cbn [n_init n_prog]. destruct (Nat.eqb t 0); [constructor; [intros []|constructor]|constructor].
  - constructor.
  - intros e X. rewrite (L e X). apply (po_root p K).
  - intros e [].
  - intros e _ [].
  - intros e. split; [intros X; apply HH in X; discriminate|intros [[] _]].
  - intros e [].
  - intros g X. apply HH in X. discriminate.
  - constructor.
  - constructor.
  - constructor.
  - constructor.
  - intros g [].
  - intros e [].
  - intros e X. left. exact (L e X).
  - intros g c _ [].
  - intros t A e B E. assert (X : In (End e) (n_prog (n_init p) t)) by (cbn [n_init n_prog] in *; rewrite E; apply in_or_app; right; left; reflexivity). apply H in X. destruct X; discriminate.
  - intros g c [].
  - intros t A h B E. assert (X : In (Wait h) (n_prog (n_init p) t)) by (cbn [n_init n_prog] in *; rewrite E; apply in_or_app; right; left; reflexivity). apply H in X. destruct X; discriminate.
  - intros t o I _. apply (H t o I).
  - intros [].
  - left. exists 0. left. reflexivity.
  - intros t L0. cbn [n_init n_prog]. destruct (Nat.eqb_spec t 0); [lia|reflexivity].
Qed.

(** Replacing the head of a program. *)
Lemma has_upd s t o r X q b d ov tk o' : (forall t t' x, In x (n_prog s t) -> In x (n_prog s t') -> t = t') -> NoDup (n_prog s t) -> n_prog s t = o :: r ->
  (has (mkN (upd (n_prog s) t (X ++ r)) q b d ov tk) o' <-> In o' X \/ (has s o' /\ o' <> o)).
Proof.
  intros ONE ND P. unfold has. cbn [n_prog]. split.
  - intros [u I]. unfold upd in I. destruct (Nat.eqb_spec u t) as [EU|N]; [subst u|].
    + apply in_app_or in I. destruct I as [I|I]; [left; exact I|right]. split; [exists t; rewrite P; right; exact I|]. intros ->. rewrite P in ND. inversion ND; contradiction.
    + right. split; [exists u; exact I|]. intros ->. apply N. apply (ONE u t o I). rewrite P. left. reflexivity.
  - intros [I|[[u I] N]].
    + exists t. rewrite upd_same. apply in_or_app. left. exact I.
    + destruct (Nat.eqb_spec u t) as [EU|M]; [subst u|].
      * exists t. rewrite upd_same. rewrite P in I. destruct I as [->|I]; [congruence|]. apply in_or_app. right. exact I.
      * exists u. rewrite upd_other by exact M. exact I.
Qed.
Lemma nodup_app_intro {A} (a b : list A) : NoDup a -> NoDup b -> (forall x, In x a -> ~ In x b) -> NoDup (a ++ b).
Proof.
  intros NA NB D. induction NA as [|x a X NA IH]; cbn [app]; [exact NB|]. constructor.
  - intros I. apply in_app_or in I. destruct I as [I|I]; [contradiction|]. apply (D x); [left; reflexivity|exact I].
  - apply IH. intros y I. apply D. right. exact I.
Qed.
Lemma one_upd s t o r X : (forall t t' x, In x (n_prog s t) -> In x (n_prog s t') -> t = t') -> (forall t, NoDup (n_prog s t)) -> n_prog s t = o :: r -> NoDup X -> (forall x, In x X -> ~ has s x) ->
  (forall u u' x, In x (upd (n_prog s) t (X ++ r) u) -> In x (upd (n_prog s) t (X ++ r) u') -> u = u') /\ forall u, NoDup (upd (n_prog s) t (X ++ r) u).
Proof.
  intros ONE ND P NX F.
  assert (OLD : forall x, In x r -> In x (n_prog s t)) by (intros x I; rewrite P; right; exact I).
  split.
  - intros u u' x I I'. unfold upd in I, I'. destruct (Nat.eqb_spec u t) as [EU|N]; destruct (Nat.eqb_spec u' t) as [EU'|N']; try subst u; try subst u'; try reflexivity.
    + exfalso. apply in_app_or in I. destruct I as [I|I]; [apply (F x I); exists u'; exact I'|]. apply N'. apply (ONE u' t x I'). auto.
    + exfalso. apply in_app_or in I'. destruct I' as [I'|I']; [apply (F x I'); exists u; exact I|]. apply N. apply (ONE u t x I). auto.
    + apply (ONE u u' x I I').
  - intros u. unfold upd. destruct (Nat.eqb_spec u t) as [EU|N]; [subst u|apply ND]. specialize (ND t). rewrite P in ND. inversion ND as [|? ? A B]; subst. apply nodup_app_intro; [exact NX|exact B|].
    intros x I J. apply (F x I). exists t. apply OLD, J.
Qed.
(** Splitting [X ++ r] at an operation. *)
Lemma split_app {A} (X r : list A) a x b : X ++ r = a ++ x :: b -> (exists b', X = a ++ x :: b' /\ b = b' ++ r) \/ (exists a', a = X ++ a' /\ r = a' ++ x :: b).
Proof.
  revert a. induction X as [|y X IH]; intros a E; cbn [app] in E.
  - right. exists a. auto.
  - destruct a as [|z a]; cbn [app] in E.
    + injection E as -> E. left. exists X. auto.
    + injection E as -> E. destruct (IH a E) as [(b' & -> & ->)|(a' & -> & ->)]; [left; exists b'; auto|right; exists a'; auto].
Qed.
Lemma last_split {A} (Y a b : list A) x y : Y ++ [y] = a ++ x :: b -> (exists b', Y = a ++ x :: b' /\ b = b' ++ [y]) \/ (a = Y /\ x = y /\ b = []).
Proof.
  intros E. destruct (split_app _ _ _ _ _ E) as [H|(a' & -> & F)]; [left; exact H|right]. destruct a' as [|z a']; cbn [app] in F; [injection F as <- <-; rewrite app_nil_r; auto|].
  injection F as _ F. destruct a'; discriminate F.
Qed.
Lemma in_snd_app (q Q : list (nat * nat)) e : In e (map snd (q ++ Q)) <-> In e (map snd q) \/ In e (map snd Q).
Proof. rewrite map_app. apply in_app_iff. Qed.
Lemma snoc_in {A} (l : list A) x y : In x (l ++ [y]) <-> In x l \/ x = y.
Proof. rewrite in_app_iff. cbn. intuition. Qed.
Lemma nodup_snoc {A} (l : list A) x : NoDup l -> ~ In x l -> NoDup (l ++ [x]).
Proof. intros N X. apply nodup_app_intro; [exact N|constructor; [intros []|constructor]|]. intros y I [<-|[]]. contradiction. Qed.
Lemma live_of p W s o c : ninv p W s -> has s o -> about o = Some c -> live s c.
Proof.
  intros V H A. destruct o as [e|g|e]; cbn [about] in A; [|discriminate|]; injection A as ->; [right; left; exact H|]. right. right. apply (v_end p W s V), H.
Qed.
Lemma rel_kid p W s c : plan_ok p -> ninv p W s -> live s c -> forall g, In c (e_kids p g) -> In g (n_begun s) /\ (e_kind p g = KPar -> forall d, In d (e_dep p c) -> In d (n_done s)).
Proof. intros K V L g I. destruct (po_kid p K g c I) as (P & N & _). destruct (v_rel p W s V c L) as [E|(A & _ & B)]; [contradiction|]. rewrite P in A, B. auto. Qed.

Lemma run_step p W s t e r Y Q : plan_ok p -> ninv p W s -> n_prog s t = Run e :: r -> NoDup Y ->
  (forall x, In x Y -> (x = Wait e /\ e_kind p e = KPar) \/ exists c, x = Run c /\ In c (e_kids p e)) -> (forall A B, Y = A ++ Wait e :: B -> B = []) -> end_ok p (n_done s) Y e ->
  NoDup (map snd Q) -> (forall c, In c (map snd Q) -> In c (e_kids p e) /\ ~ In (Run c) Y) ->
  (e_kind p e = KPar -> forall c, In (Run c) Y \/ In c (map snd Q) -> e_dep p c = []) -> (e_kind p e = KPar -> forall c, In c (e_kids p e) -> e_dep p c = [] -> In (Run c) Y \/ In c (map snd Q)) ->
  ninv p W (mkN (upd (n_prog s) t ((Y ++ [End e]) ++ r)) (n_q s ++ Q) (n_begun s ++ [e]) (n_done s) (n_over s) (n_taken s)).
Proof.
  intros K V P NY FY FW EO NQ FQ D1 D2. set (s' := mkN _ _ _ _ _ _).
  assert (RE : has s (Run e)) by (exists t; rewrite P; left; reflexivity).
  assert (NB : ~ In e (n_begun s)) by exact (v_run p W s V e RE).
  assert (ND : ~ In e (n_done s)) by (intros I; apply NB, (v_done p W s V), I).
  assert (LE : live s e) by (right; left; exact RE).
  assert (NK : forall c, In c (e_kids p e) -> ~ live s c) by (intros c I L; apply NB, (rel_kid p W s c K V L e I)).
  assert (FX : forall x, In x (Y ++ [End e]) -> ~ has s x).
  { intros x I H. apply snoc_in in I. destruct I as [I| ->]; [|apply (v_end p W s V) in H; tauto]. destruct (FY x I) as [[-> _]|(c & -> & C)]; [apply NB, (v_wait p W s V e H)|]. apply (NK c C). right. left. exact H. }
  assert (NX : NoDup (Y ++ [End e])) by (apply nodup_snoc; [exact NY|]; intros I; destruct (FY _ I) as [[X _]|(c & X & _)]; discriminate X).
  assert (HS : forall x, has s' x <-> In x (Y ++ [End e]) \/ (has s x /\ x <> Run e)) by (intros x; apply has_upd; [apply (v_one p W s V)|apply (v_nd p W s V)|exact P]).
  destruct (one_upd s t (Run e) r (Y ++ [End e]) (v_one p W s V) (v_nd p W s V) P NX FX) as [ONE' ND'].
  assert (HR : forall c, has s' (Run c) -> In c (e_kids p e) /\ In (Run c) Y \/ has s (Run c) /\ c <> e).
  { intros c H. apply HS in H. destruct H as [I|[H N]]; [|right; split; [exact H|congruence]]. apply snoc_in in I. destruct I as [I|I]; [|discriminate I]. destruct (FY _ I) as [[X _]|(c' & X & C)]; [discriminate X|]. injection X as <-. left. auto. }
  assert (LIVE : forall c, live s c -> live s' c).
  { intros c [H|[H|H]]; unfold live.
    - left. apply in_snd_app. left. exact H.
    - destruct (Nat.eq_dec c e) as [->|N]; [right; right; apply snoc_in; right; reflexivity|]. right. left. apply HS. right. split; [exact H|congruence].
    - right. right. apply snoc_in. left. exact H. }
  assert (LIVE' : forall c, live s' c -> live s c \/ (In c (e_kids p e) /\ (In (Run c) Y \/ In c (map snd Q)))).
  { intros c [H|[H|H]].
    - apply in_snd_app in H. destruct H as [H|H]; [left; left; exact H|right; split; [apply FQ, H|right; exact H]].
    - apply HR in H. destruct H as [[A B]|[A _]]; [right; auto|left; right; left; exact A].
    - apply snoc_in in H. left. destruct H as [H| ->]; [right; right; exact H|exact LE]. }
  split; unfold queued; change (n_q s') with (n_q s ++ Q); change (n_begun s') with (n_begun s ++ [e]); change (n_done s') with (n_done s); change (n_over s') with (n_over s); change (n_taken s') with (n_taken s).
  - exact ONE'.
  - exact ND'.
  - rewrite map_app. apply nodup_app_intro; [apply (v_q p W s V)|exact NQ|]. intros c I J. apply (NK c); [apply FQ, J|left; exact I].
  - intros c L. destruct (LIVE' c L) as [O|[C _]]; [apply (v_all p W s V), O|apply (po_kid p K e c C)].
  - intros c H. apply in_snd_app in H. destruct H as [H|H].
    + destruct (v_qrun p W s V c H) as [A B]. split.
      * intros X. apply HR in X. destruct X as [[X _]|[X _]]; [apply (NK c X); left; exact H|contradiction].
      * intros X. apply snoc_in in X. destruct X as [X| ->]; [contradiction|]. apply A, RE.
    + destruct (FQ c H) as [C N]. split.
      * intros X. apply HR in X. destruct X as [[_ X]|[X _]]; [contradiction|]. apply (NK c C). right. left. exact X.
      * intros X. apply snoc_in in X. destruct X as [X| ->]; [apply (NK c C); right; right; exact X|]. apply (NK e C), LE.
  - intros c H X. apply HR in H. apply snoc_in in X. destruct H as [[C _]|[H N]], X as [X|X].
    + apply (NK c C). right. right. exact X.
    + subst c. apply (NK e C), LE.
    + exact (v_run p W s V c H X).
    + contradiction.
  - intros x. rewrite HS, snoc_in, snoc_in. split.
    + intros [[I|I]|[H _]]; [destruct (FY _ I) as [[X _]|(c & X & _)]; discriminate X|injection I as ->; auto|]. apply (v_end p W s V) in H. tauto.
    + intros [[I|I] N]; [right; split; [apply (v_end p W s V); auto|discriminate]|subst x; auto].
  - intros x I. apply snoc_in. left. apply (v_done p W s V), I.
  - intros g H. apply HS in H. destruct H as [I|[H _]].
    + apply snoc_in in I. destruct I as [I|I]; [|discriminate I]. destruct (FY _ I) as [[X KP]|(c & X & _)]; [|discriminate X]. injection X as ->. split; [apply snoc_in; auto|]. split; [exact KP|]. intros O. apply NB, (v_over p W s V), O.
    + destruct (v_wait p W s V g H) as (A & B & C). split; [apply snoc_in; auto|auto].
  - apply nodup_snoc; [apply (v_b p W s V)|exact NB].
  - apply (v_d p W s V).
  - apply (v_o p W s V).
  - apply (v_t p W s V).
  - intros g I. apply snoc_in. left. apply (v_over p W s V), I.
  - intros c I. destruct (v_taken p W s V c I) as [H|H]; [|right; apply snoc_in; auto]. destruct (Nat.eq_dec c e) as [->|N]; [right; apply snoc_in; auto|]. left. apply HS. right. split; [exact H|congruence].
  - intros c L. destruct (LIVE' c L) as [O|[C RQ]].
    + destruct (v_rel p W s V c O) as [E|(A & B & D)]; [left; exact E|right]. split; [apply snoc_in; auto|auto].
    + right. destruct (po_kid p K e c C) as (PE & _ & _). rewrite PE. split; [apply snoc_in; auto|]. split; [exact C|]. intros KP d I. rewrite (D1 KP c RQ) in I. destruct I.
  - intros g c KP G C DN. apply snoc_in in G. destruct G as [G| ->]; [apply LIVE, (v_par p W s V g c KP G C DN)|].
    destruct (e_dep p c) as [|d l] eqn:DE.
    + destruct (D2 KP c C DE) as [X|X]; [right; left; apply HS; left; apply snoc_in; auto|left; apply in_snd_app; auto].
    + exfalso. assert (DD : In d (n_done s)) by (apply DN; left; reflexivity). assert (DK : In d (e_kids p e)).
      { destruct (po_kid p K e c C) as (PE & _ & AL). rewrite <- PE. apply (po_dep p K c d); [rewrite DE; left; reflexivity|exact AL]. }
      apply (NK d DK). right. right. apply (v_done p W s V), DD.
  - intros u A x B E. cbn [s' n_prog] in E. unfold upd in E. destruct (Nat.eqb_spec u t) as [EU|N]; [subst u|exact (v_ends p W s V u A x B E)].
    destruct (split_app _ _ _ _ _ E) as [(b' & E1 & _)|(a' & -> & E1)].
    + destruct (last_split _ _ _ _ _ E1) as [(b2 & E2 & _)|(-> & E2 & _)].
      * assert (I : In (End x) Y) by (rewrite E2; apply in_or_app; right; left; reflexivity). destruct (FY _ I) as [[X _]|(c & X & _)]; discriminate X.
      * injection E2 as ->. exact EO.
    + assert (O : end_ok p (n_done s) (Run e :: a') x) by (apply (v_ends p W s V t _ x B); rewrite P, E1; reflexivity).
      unfold end_ok in *. destruct (e_kind p x).
      * exact I.
      * intros c C. destruct (O c C) as [H|[[H|H]|[H|H]]]; [left; exact H| | |discriminate H|].
        -- injection H as <-. right. right. apply in_or_app. left. apply snoc_in. auto.
        -- right. left. apply in_or_app. auto.
        -- right. right. apply in_or_app. auto.
      * destruct O as [[H|H]|H]; [discriminate H|left; apply in_or_app; auto|right; exact H].
  - exact (v_kids p W s V).
  - intros u A h B E. cbn [s' n_prog] in E. unfold upd in E. destruct (Nat.eqb_spec u t) as [EU|N].
    2:{ intros o c I AB R KP. apply before_app. exact (v_waits p W s V u A h B E o c I AB R KP). }
    subst u. destruct (split_app _ _ _ _ _ E) as [(b' & E1 & ->)|(a' & -> & E1)].
    + destruct (last_split _ _ _ _ _ E1) as [(b2 & E2 & ->)|(_ & E2 & _)]; [|discriminate E2].
      assert (I : In (Wait h) Y) by (rewrite E2; apply in_or_app; right; left; reflexivity). destruct (FY _ I) as [[X KP]|(c & X & _)]; [|discriminate X]. injection X as ->.
      rewrite (FW _ _ E2). cbn [app]. intros o c [<-|J] AB R KC.
      * cbn [about] in AB. injection AB as <-. apply before_last. destruct (v_rel p W s V e LE) as [X|(X & _)]; [contradiction|exact X].
      * apply before_last. destruct (v_rel p W s V c) as [X|(X & _)]; [|contradiction|exact X]. apply (live_of p W s o c V); [|exact AB]. exists t. rewrite P. right. exact J.
    + intros o c I AB R KP. apply before_app. apply (v_waits p W s V t (Run e :: a') h B) with (o := o); try assumption. rewrite P, E1. reflexivity.
  - intros u o I ER. cbn [s' n_prog] in I. unfold upd in I. destruct (Nat.eqb_spec u t) as [EU|N]; [subst u|exact (v_main p W s V u o I ER)].
    apply in_app_or in I. destruct I as [I|I]; [|apply (v_main p W s V t o); [rewrite P; right; exact I|exact ER]].
    assert (T : e = e_root p -> t = 0) by (intros EE; apply (v_main p W s V t (Run e)); [rewrite P; left; reflexivity|exact EE]).
    apply snoc_in in I. destruct I as [I|I]; [|subst o; apply T, ER]. destruct (FY _ I) as [[-> _]|(c & -> & C)]; [apply T, ER|]. cbn [eop] in ER. exfalso. apply (po_kid p K e c C). exact ER.
  - intros I. apply in_snd_app in I. destruct I as [I|I]; [exact (v_rootq p W s V I)|]. apply (po_kid p K e (e_root p)); [apply FQ, I|reflexivity].
  - destruct (v_root p W s V) as [H|H]; [|right; apply snoc_in; auto]. destruct (Nat.eq_dec (e_root p) e) as [<-|N]; [right; apply snoc_in; auto|]. left. apply HS. right. split; [exact H|congruence].
  - intros u L. cbn [s' n_prog]. unfold upd. destruct (Nat.eqb_spec u t) as [EU|N]; [|apply (v_idle p W s V u L)]. subst u. rewrite (v_idle p W s V t L) in P. discriminate P.
Qed.

Lemma end_step p W s t e r own Q : plan_ok p -> ninv p W s -> n_prog s t = End e :: r -> NoDup (map snd Q) ->
  (forall c, own = Some c -> ~ In c (map snd Q)) ->
  (forall c, own = Some c \/ In c (map snd Q) -> e_kind p (e_par p e) = KPar /\ In c (e_kids p (e_par p e)) /\ In e (e_dep p c) /\ forall d, In d (e_dep p c) -> In d (n_done s ++ [e])) ->
  (e <> e_root p -> e_kind p (e_par p e) = KPar -> forall c, In c (e_kids p (e_par p e)) -> In e (e_dep p c) -> (forall d, In d (e_dep p c) -> In d (n_done s ++ [e])) -> own = Some c \/ In c (map snd Q)) ->
  ninv p W (mkN (upd (n_prog s) t (tops own ++ r)) (n_q s ++ Q) (n_begun s) (n_done s ++ [e]) (n_over s) (n_taken s)).
Proof.
  intros K V P NQ OQ NEW ALL. set (s' := mkN _ _ _ _ _ _).
  assert (HE : has s (End e)) by (exists t; rewrite P; left; reflexivity).
  destruct (proj1 (v_end p W s V e) HE) as [BE ND].
  assert (NK : forall c, own = Some c \/ In c (map snd Q) -> ~ live s c).
  { intros c I L. destruct (NEW c I) as (KP & C & D & _). apply ND, (proj2 (rel_kid p W s c K V L _ C) KP e D). }
  assert (TO : forall x, In x (tops own) <-> exists c, x = Run c /\ own = Some c).
  { intros x. destruct own as [c|]; cbn [tops]; [split; [intros [<-|[]]; exists c; auto|intros (c' & -> & X); injection X as ->; left; reflexivity]|split; [intros []|intros (c & _ & X); discriminate X]]. }
  assert (FX : forall x, In x (tops own) -> ~ has s x) by (intros x I H; apply TO in I; destruct I as (c & -> & O); apply (NK c (or_introl O)); right; left; exact H).
  assert (NX : NoDup (tops own)) by (destruct own; cbn [tops]; [constructor; [intros []|constructor]|constructor]).
  assert (HS : forall x, has s' x <-> In x (tops own) \/ (has s x /\ x <> End e)) by (intros x; apply has_upd; [apply (v_one p W s V)|apply (v_nd p W s V)|exact P]).
  destruct (one_upd s t (End e) r (tops own) (v_one p W s V) (v_nd p W s V) P NX FX) as [ONE' ND'].
  assert (HR : forall c, has s' (Run c) <-> own = Some c \/ has s (Run c)).
  { intros c. rewrite HS, TO. split; [intros [(c' & X & O)|[H _]]; [injection X as <-; left; exact O|right; exact H]|intros [O|H]; [left; exists c; auto|right; split; [exact H|discriminate]]]. }
  assert (LIVE : forall c, live s' c <-> live s c \/ (own = Some c \/ In c (map snd Q))).
  { intros c. unfold live, queued. change (n_q s') with (n_q s ++ Q). change (n_begun s') with (n_begun s). rewrite in_snd_app, HR. tauto. }
  split; unfold queued; change (n_q s') with (n_q s ++ Q); change (n_begun s') with (n_begun s); change (n_done s') with (n_done s ++ [e]); change (n_over s') with (n_over s); change (n_taken s') with (n_taken s).
  - exact ONE'.
  - exact ND'.
  - rewrite map_app. apply nodup_app_intro; [apply (v_q p W s V)|exact NQ|]. intros c I J. apply (NK c (or_intror J)). left. exact I.
  - intros c L. apply LIVE in L. destruct L as [L|L]; [apply (v_all p W s V), L|]. destruct (NEW c L) as (_ & C & _). apply (po_kid p K _ c C).
  - intros c H. rewrite HR. apply in_snd_app in H. destruct H as [H|H].
    + destruct (v_qrun p W s V c H) as [A B]. split; [|exact B]. intros [O|X]; [|contradiction]. apply (NK c (or_introl O)). left. exact H.
    + pose proof (NK c (or_intror H)) as NL. split; [intros [O|X]; [exact (OQ c O H)|apply NL; right; left; exact X]|intros X; apply NL; right; right; exact X].
  - intros c H X. apply HR in H. destruct H as [O|H]; [apply (NK c (or_introl O)); right; right; exact X|exact (v_run p W s V c H X)].
  - intros x. rewrite HS, snoc_in. split.
    + intros [I|[H N]]; [apply TO in I; destruct I as (c & X & _); discriminate X|]. apply (v_end p W s V) in H. split; [tauto|]. intros [D|D]; [tauto|congruence].
    + intros [B N]. right. split; [apply (v_end p W s V); tauto|]. intros E. injection E as ->. apply N. right. reflexivity.
  - intros x I. apply snoc_in in I. destruct I as [I| ->]; [apply (v_done p W s V), I|exact BE].
  - intros g H. apply HS in H. destruct H as [I|[H _]]; [apply TO in I; destruct I as (c & X & _); discriminate X|exact (v_wait p W s V g H)].
  - apply (v_b p W s V).
  - apply nodup_snoc; [apply (v_d p W s V)|exact ND].
  - apply (v_o p W s V).
  - apply (v_t p W s V).
  - apply (v_over p W s V).
  - intros c I. rewrite HR. destruct (v_taken p W s V c I) as [H|H]; auto.
  - intros c L. apply LIVE in L. destruct L as [L|L].
    + destruct (v_rel p W s V c L) as [E|(A & B & D)]; [left; exact E|right]. split; [exact A|]. split; [exact B|]. intros KP d I. apply snoc_in. left. exact (D KP d I).
    + destruct (NEW c L) as (KP & C & D & DN). right. destruct (po_kid p K _ c C) as (PE & _ & _). rewrite PE. split; [|split; [exact C|intros _; exact DN]].
      destruct (v_rel p W s V e) as [E|(A & _)]; [right; right; exact BE| |exact A].
      exfalso. destruct (po_kid p K _ c C) as (PE' & _ & AL). pose proof (po_dep p K c e D AL) as X. apply (po_kid p K _ e X). exact E.
  - intros g c KP G C DN. apply LIVE. destruct (in_dec Nat.eq_dec e (e_dep p c)) as [D|D].
    + right. destruct (po_kid p K g c C) as (PE & _ & AL). pose proof (po_dep p K c e D AL) as X. rewrite PE in X. destruct (po_kid p K g e X) as (PE2 & NR & _). rewrite PE2 in ALL. apply (ALL NR KP c C D DN).
    + left. apply (v_par p W s V g c KP G C). intros d I. pose proof (DN d I) as X. apply snoc_in in X. destruct X as [X| ->]; [exact X|contradiction].
  - intros u A x B E. cbn [s' n_prog] in E. unfold upd in E.
    assert (MONO : forall A', end_ok p (n_done s) A' x -> end_ok p (n_done s ++ [e]) A' x).
    { intros A'. unfold end_ok. destruct (e_kind p x); [auto| |].
      - intros O c C. destruct (O c C) as [H|H]; [left; apply snoc_in; left; exact H|right; exact H].
      - intros [H|H]; [left; exact H|right]. intros c C. apply snoc_in. left. exact (H c C). }
    destruct (Nat.eqb_spec u t) as [EU|N]; [subst u|exact (MONO _ (v_ends p W s V u A x B E))].
    destruct (split_app _ _ _ _ _ E) as [(b' & E1 & _)|(a' & -> & E1)].
    + assert (I : In (End x) (tops own)) by (rewrite E1; apply in_or_app; right; left; reflexivity). apply TO in I. destruct I as (c & X & _). discriminate X.
    + assert (O : end_ok p (n_done s) (End e :: a') x) by (apply (v_ends p W s V t _ x B); rewrite P, E1; reflexivity).
      unfold end_ok in *. destruct (e_kind p x).
      * exact I.
      * intros c C. destruct (O c C) as [H|[[H|H]|[H|H]]].
        -- left. apply snoc_in. auto.
        -- discriminate H.
        -- right. left. apply in_or_app. auto.
        -- injection H as <-. left. apply snoc_in. auto.
        -- right. right. apply in_or_app. auto.
      * destruct O as [[H|H]|H]; [discriminate H|left; apply in_or_app; auto|right; intros c C; apply snoc_in; left; exact (H c C)].
  - intros g c I C. apply snoc_in in I. apply snoc_in. left. destruct I as [I| ->]; [exact (v_kids p W s V g c I C)|].
    pose proof (v_ends p W s V t [] e r P) as O. unfold end_ok in O. destruct (e_kind p e) eqn:KE.
    + rewrite (po_node p K e KE) in C. destruct C.
    + destruct (O c C) as [H|[[]|[]]]; exact H.
    + destruct O as [[]|O]. exact (O c C).
  - intros u A h B E. cbn [s' n_prog] in E. unfold upd in E. destruct (Nat.eqb_spec u t) as [EU|N]; [subst u|exact (v_waits p W s V u A h B E)].
    destruct (split_app _ _ _ _ _ E) as [(b' & E1 & ->)|(a' & -> & E1)].
    + assert (I : In (Wait h) (tops own)) by (rewrite E1; apply in_or_app; right; left; reflexivity). apply TO in I. destruct I as (c & X & _). discriminate X.
    + apply (v_waits p W s V t (End e :: a') h B). rewrite P, E1. reflexivity.
  - intros u o I ER. cbn [s' n_prog] in I. unfold upd in I. destruct (Nat.eqb_spec u t) as [EU|N]; [subst u|exact (v_main p W s V u o I ER)].
    apply in_app_or in I. destruct I as [I|I]; [|apply (v_main p W s V t o); [rewrite P; right; exact I|exact ER]].
    apply TO in I. destruct I as (c & -> & O). cbn [eop] in ER. destruct (NEW c (or_introl O)) as (_ & C & _). exfalso. apply (po_kid p K _ c C). exact ER.
  - intros I. apply in_snd_app in I. destruct I as [I|I]; [exact (v_rootq p W s V I)|]. destruct (NEW _ (or_intror I)) as (_ & C & _). apply (po_kid p K _ _ C). reflexivity.
  - rewrite HR. destruct (v_root p W s V) as [H|H]; auto.
  - intros u L. cbn [s' n_prog]. unfold upd. destruct (Nat.eqb_spec u t) as [EU|N]; [|apply (v_idle p W s V u L)]. subst u. rewrite (v_idle p W s V t L) in P. discriminate P.
Qed.

Lemma wait_step p W s t g r : plan_ok p -> ninv p W s -> n_prog s t = Wait g :: r -> (forall c, In c (e_kids p g) -> In c (n_done s)) ->
  ninv p W (mkN (upd (n_prog s) t r) (n_q s) (n_begun s) (n_done s) (n_over s ++ [g]) (n_taken s)).
Proof.
  intros K V P DN. change r with ([] ++ r) at 1. set (s' := mkN _ _ _ _ _ _).
  assert (HG : has s (Wait g)) by (exists t; rewrite P; left; reflexivity).
  destruct (v_wait p W s V g HG) as (BG & KG & NG).
  assert (HS : forall x, has s' x <-> has s x /\ x <> Wait g).
  { intros x. unfold s'. rewrite (has_upd s t (Wait g) r [] _ _ _ _ _ x (v_one p W s V) (v_nd p W s V t) P). split; [intros [[]|H]; exact H|intros H; right; exact H]. }
  destruct (one_upd s t (Wait g) r [] (v_one p W s V) (v_nd p W s V) P (NoDup_nil _)) as [ONE' ND']; [intros x []|].
  assert (HR : forall c, has s' (Run c) <-> has s (Run c)) by (intros c; rewrite HS; split; [intros [H _]; exact H|intros H; split; [exact H|discriminate]]).
  assert (LIVE : forall c, live s' c <-> live s c) by (intros c; unfold live; rewrite HR; reflexivity).
  split; unfold queued; change (n_q s') with (n_q s); change (n_begun s') with (n_begun s); change (n_done s') with (n_done s); change (n_over s') with (n_over s ++ [g]); change (n_taken s') with (n_taken s).
  - exact ONE'.
  - exact ND'.
  - apply (v_q p W s V).
  - intros c L. apply (v_all p W s V), LIVE, L.
  - intros c H. rewrite HR. exact (v_qrun p W s V c H).
  - intros c H. apply HR in H. exact (v_run p W s V c H).
  - intros x. rewrite HS. rewrite <- (v_end p W s V x). split; [intros [H _]; exact H|intros H; split; [exact H|discriminate]].
  - apply (v_done p W s V).
  - intros h H. apply HS in H. destruct H as [H N]. destruct (v_wait p W s V h H) as (A & B & C). split; [exact A|]. split; [exact B|]. rewrite snoc_in. intros [X|X]; [contradiction|congruence].
  - apply (v_b p W s V).
  - apply (v_d p W s V).
  - apply nodup_snoc; [apply (v_o p W s V)|exact NG].
  - apply (v_t p W s V).
  - intros h I. apply snoc_in in I. destruct I as [I| ->]; [apply (v_over p W s V), I|exact BG].
  - intros c I. rewrite HR. exact (v_taken p W s V c I).
  - intros c L. apply LIVE in L. exact (v_rel p W s V c L).
  - intros h c KP G C D. apply LIVE. exact (v_par p W s V h c KP G C D).
  - intros u A x B E. cbn [s' n_prog] in E. unfold upd in E. destruct (Nat.eqb_spec u t) as [EU|N]; [subst u|exact (v_ends p W s V u A x B E)].
    cbn [app] in E. assert (O : end_ok p (n_done s) (Wait g :: A) x) by (apply (v_ends p W s V t _ x B); rewrite P, E; reflexivity).
    unfold end_ok in *. destruct (e_kind p x).
    + exact I.
    + intros c C. destruct (O c C) as [H|[[H|H]|[H|H]]]; try discriminate H; auto.
    + destruct O as [[H|H]|H]; [injection H as <-; right; exact DN|left; exact H|right; exact H].
  - apply (v_kids p W s V).
  - intros u A h B E. cbn [s' n_prog] in E. unfold upd in E. destruct (Nat.eqb_spec u t) as [EU|N]; [subst u|exact (v_waits p W s V u A h B E)].
    cbn [app] in E. apply (v_waits p W s V t (Wait g :: A) h B). rewrite P, E. reflexivity.
  - intros u o I ER. cbn [s' n_prog] in I. unfold upd in I. destruct (Nat.eqb_spec u t) as [EU|N]; [subst u|exact (v_main p W s V u o I ER)].
    apply (v_main p W s V t o); [rewrite P; right; exact I|exact ER].
  - apply (v_rootq p W s V).
  - rewrite HR. apply (v_root p W s V).
  - intros u L. cbn [s' n_prog]. unfold upd. destruct (Nat.eqb_spec u t) as [EU|N]; [|apply (v_idle p W s V u L)]. subst u. rewrite (v_idle p W s V t L) in P. discriminate P.
Qed.

Lemma take_step p W s w ts q' : plan_ok p -> ninv p W s -> n_prog s w = [] -> 1 <= w <= W -> NoDup ts -> (forall c, queued s c <-> In c ts \/ In c (map snd q')) -> NoDup (map snd q') -> (forall c, In c ts -> ~ In c (map snd q')) -> forall tk, (forall c, In c tk <-> In c ts) -> NoDup tk ->
  ninv p W (mkN (upd (n_prog s) w (map Run ts)) q' (n_begun s) (n_done s) (n_over s) (n_taken s ++ tk)).
Proof.
  intros K V P WR NT QI NQ DJ tk TK NTK. set (s' := mkN _ _ _ _ _ _).
  assert (QT : forall c, In c ts -> queued s c) by (intros c I; apply QI; left; exact I).
  assert (MR : forall x, In x (map Run ts) <-> exists c, x = Run c /\ In c ts) by (intros x; rewrite in_map_iff; split; intros (c & A & B); exists c; auto).
  assert (HS : forall x, has s' x <-> In x (map Run ts) \/ has s x).
  { intros x. unfold has, s'. cbn [n_prog]. split.
    - intros [u I]. unfold upd in I. destruct (Nat.eqb u w); [left; exact I|right; exists u; exact I].
    - intros [I|[u I]]; [exists w; rewrite upd_same; exact I|]. exists u. rewrite upd_other; [exact I|]. intros ->. rewrite P in I. destruct I. }
  assert (HR : forall c, has s' (Run c) <-> In c ts \/ has s (Run c)).
  { intros c. rewrite HS, MR. split; [intros [(c' & X & I)|H]; [injection X as <-; left; exact I|right; exact H]|intros [I|H]; [left; exists c; auto|right; exact H]]. }
  assert (LIVE : forall c, live s' c <-> live s c).
  { intros c. unfold live at 1 2. change (n_begun s') with (n_begun s). rewrite HR, QI. unfold queued. change (n_q s') with q'. tauto. }
  assert (NR : forall c, In c ts -> ~ has s (Run c)) by (intros c I; apply (v_qrun p W s V c), QT, I).
  assert (HO : forall x, (forall c, x <> Run c) -> (has s' x <-> has s x)).
  { intros x N. rewrite HS, MR. split; [intros [(c & X & _)|H]; [destruct (N c X)|exact H]|intros H; right; exact H]. }
  split; unfold queued; change (n_q s') with q'; change (n_begun s') with (n_begun s); change (n_done s') with (n_done s); change (n_over s') with (n_over s); change (n_taken s') with (n_taken s ++ tk).
  - assert (F : forall x u, In x (map Run ts) -> ~ In x (n_prog s u)) by (intros x u I J; apply MR in I; destruct I as (c & -> & I); apply (NR c I); exists u; exact J).
    intros u u' x I I'. cbn [s' n_prog] in I, I'. unfold upd in I, I'. destruct (Nat.eqb_spec u w) as [A|A]; destruct (Nat.eqb_spec u' w) as [B|B]; [congruence|destruct (F x u' I I')|destruct (F x u I' I)|exact (v_one p W s V u u' x I I')].
  - intros u. cbn [s' n_prog]. unfold upd. destruct (Nat.eqb u w); [|apply (v_nd p W s V)]. apply FinFun.Injective_map_NoDup; [intros a b E; injection E as ->; reflexivity|exact NT].
  - exact NQ.
  - intros c L. apply (v_all p W s V), LIVE, L.
  - intros c H. rewrite HR. destruct (v_qrun p W s V c) as [A B]; [apply QI; right; exact H|]. split; [|exact B]. intros [I|I]; [exact (DJ c I H)|contradiction].
  - intros c H. apply HR in H. destruct H as [I|H]; [apply (v_qrun p W s V c), QT, I|exact (v_run p W s V c H)].
  - intros x. rewrite HO by discriminate. apply (v_end p W s V).
  - apply (v_done p W s V).
  - intros g H. apply HO in H; [|discriminate]. exact (v_wait p W s V g H).
  - apply (v_b p W s V).
  - apply (v_d p W s V).
  - apply (v_o p W s V).
  - apply nodup_app_intro; [apply (v_t p W s V)|exact NTK|]. intros c I J. apply TK, QT in J. destruct (v_qrun p W s V c J) as [A B]. destruct (v_taken p W s V c I); contradiction.
  - apply (v_over p W s V).
  - intros c I. rewrite HR. apply in_app_or in I. destruct I as [I|I]; [|left; left; apply TK, I]. destruct (v_taken p W s V c I); auto.
  - intros c L. apply LIVE in L. exact (v_rel p W s V c L).
  - intros h c KP G C D. apply LIVE. exact (v_par p W s V h c KP G C D).
  - intros u A x B E. cbn [s' n_prog] in E. unfold upd in E. destruct (Nat.eqb_spec u w) as [EU|N]; [|exact (v_ends p W s V u A x B E)].
    assert (I : In (End x) (map Run ts)) by (rewrite E; apply in_or_app; right; left; reflexivity). apply MR in I. destruct I as (c & X & _). discriminate X.
  - apply (v_kids p W s V).
  - intros u A h B E. cbn [s' n_prog] in E. unfold upd in E. destruct (Nat.eqb_spec u w) as [EU|N]; [|exact (v_waits p W s V u A h B E)].
    assert (I : In (Wait h) (map Run ts)) by (rewrite E; apply in_or_app; right; left; reflexivity). apply MR in I. destruct I as (c & X & _). discriminate X.
  - intros u o I ER. cbn [s' n_prog] in I. unfold upd in I. destruct (Nat.eqb_spec u w) as [EU|N]; [|exact (v_main p W s V u o I ER)].
    apply MR in I. destruct I as (c & -> & I). cbn [eop] in ER. subst c. destruct (v_rootq p W s V (QT _ I)).
  - intros I. apply (v_rootq p W s V). apply QI. right. exact I.
  - rewrite HR. destruct (v_root p W s V); auto.
  - intros u L. cbn [s' n_prog]. unfold upd. destruct (Nat.eqb_spec u w) as [EU|N]; [lia|apply (v_idle p W s V u L)].
Qed.

(** Every step keeps the invariant. *)
Lemma given_in own pl l c : In c (map snd (given own pl l)) <-> In c l /\ own <> Some c.
Proof.
  unfold given. rewrite map_map. cbn [snd]. rewrite map_id, filter_In. destruct own as [r|]; [|split; [intros [A _]; split; [exact A|discriminate]|intros [A _]; auto]].
  rewrite negb_true_iff, Nat.eqb_neq. split; intros [A B]; (split; [exact A|congruence]).
Qed.
Lemma nodup_filter {A} (f : A -> bool) l : NoDup l -> NoDup (filter f l).
Proof. intros N. induction N as [|x l X N IH]; cbn [filter]; [constructor|]. destruct (f x); [|exact IH]. constructor; [|exact IH]. intros I. apply filter_In in I. tauto. Qed.
Lemma given_nodup own pl l : NoDup l -> NoDup (map snd (given own pl l)).
Proof. intros N. unfold given. rewrite map_map. cbn [snd]. rewrite map_id. apply nodup_filter, N. Qed.
Lemma own_in own l c : own_ok own l = true -> own = Some c -> In c l.
Proof. intros O ->. apply memb_in, O. Qed.
Lemma fronts_in p g c : In c (fronts p g) <-> In c (e_kids p g) /\ e_dep p c = [].
Proof. unfold fronts. rewrite filter_In. destruct (e_dep p c); intuition discriminate. Qed.
Lemma all_memb dn l : forallb (fun d => memb d dn) l = true <-> forall d, In d l -> In d dn.
Proof. rewrite forallb_forall. split; intros H d I; apply memb_in; apply H; exact I. Qed.
Lemma freed_in p dn g e c : In c (freed p dn g e) <-> In c (e_kids p g) /\ In e (e_dep p c) /\ forall d, In d (e_dep p c) -> In d dn.
Proof. unfold freed. rewrite filter_In, andb_true_iff, memb_in, all_memb. reflexivity. Qed.
Lemma part_in (q : list (nat * nat)) f c : In c (map snd q) <-> In c (map snd (filter f q)) \/ In c (map snd (filter (fun x => negb (f x)) q)).
Proof.
  induction q as [|x q IH]; cbn [map filter]; [cbn; tauto|]. destruct (f x); cbn [negb map]; cbn [In]; rewrite IH; tauto.
Qed.
Lemma part_nodup (q : list (nat * nat)) f : NoDup (map snd q) -> NoDup (map snd (filter f q)) /\ NoDup (map snd (filter (fun x => negb (f x)) q)) /\ forall c, In c (map snd (filter f q)) -> ~ In c (map snd (filter (fun x => negb (f x)) q)).
Proof.
  induction q as [|x q IH]; cbn [map filter]; intros N; [split; [constructor|split; [constructor|intros c []]]|].
  inversion N as [|? ? X N']; subst. destruct (IH N') as (A & B & C). rewrite (part_in q f) in X.
  destruct (f x); cbn [negb map].
  - split; [constructor; [tauto|exact A]|]. split; [exact B|]. intros c [<-|I]; [tauto|exact (C c I)].
  - split; [exact A|]. split; [constructor; [tauto|exact B]|]. intros c I [<-|J]; [tauto|exact (C c I J)].
Qed.
Lemma is_par_spec p g : is_par p g = true <-> e_kind p g = KPar.
Proof. unfold is_par. destruct (e_kind p g); intuition discriminate. Qed.

Definition size (s : nst) : nat := length (n_begun s) + length (n_done s) + length (n_over s) + length (n_taken s).
Theorem nstep_inv p W R s lb s' : plan_ok p -> ninv p W s -> nstep p W R s lb = Some s' -> ninv p W s' /\ size s < size s'.
Proof.
  intros K V S. destruct lb as [w q f back|t own pl]; cbn [nstep] in S.
  - destruct (n_prog s w) eqn:P; [|discriminate S]. destruct (waiting_in s q f) as [|x r] eqn:WI; [discriminate S|]. rewrite <- WI in *.
    destruct (Nat.leb 1 w && Nat.leb w W && R w q) eqn:G; [|discriminate S]. injection S as <-. apply andb_true_iff in G. destruct G as [G _]. apply andb_true_iff in G. destruct G as [G1 G2]. apply Nat.leb_le in G1, G2.
    destruct (part_nodup (n_q s) (fun x => Nat.eqb (fst x) q && f (snd x)) (v_q p W s V)) as (A & B & C). change (map snd (filter (fun x => Nat.eqb (fst x) q && f (snd x)) (n_q s))) with (waiting_in s q f) in A, C.
    assert (RB : forall c, In c (if back then rev (waiting_in s q f) else waiting_in s q f) <-> In c (waiting_in s q f)) by (intros c; destruct back; [symmetry; apply in_rev|reflexivity]).
    split.
    + apply take_step; [exact K|exact V|exact P|auto| | |exact B| | |exact A].
      * destruct back; [apply NoDup_rev|]; exact A.
      * intros c. rewrite RB. apply part_in.
      * intros c I. apply RB in I. exact (C c I).
      * intros c. rewrite RB. reflexivity.
    + unfold size. cbn [n_begun n_done n_over n_taken]. rewrite app_length, WI. cbn [length]. lia.
  - destruct (n_prog s t) as [|[e|g|e] r] eqn:P; [discriminate S| | |].
    + destruct (e_kind p e) eqn:KE.
      * injection S as <-. split; [|unfold size; cbn [n_begun n_done n_over n_taken]; rewrite app_length; cbn [length]; lia].
        pose proof (run_step p W s t e r [] [] K V P) as X. rewrite app_nil_r in X. apply X.
        -- constructor.
        -- intros x [].
        -- intros A B E. destruct A; discriminate E.
        -- unfold end_ok. rewrite KE. exact I.
        -- constructor.
        -- intros c [].
        -- rewrite KE. discriminate.
        -- rewrite KE. discriminate.
      * injection S as <-. split; [|unfold size; cbn [n_begun n_done n_over n_taken]; rewrite app_length; cbn [length]; lia].
        pose proof (run_step p W s t e r (map Run (e_kids p e)) [] K V P) as X. rewrite (app_nil_r (n_q s)) in X.
        assert (MR : forall x, In x (map Run (e_kids p e)) <-> exists c, x = Run c /\ In c (e_kids p e)) by (intros x; rewrite in_map_iff; split; intros (c & A & B); exists c; auto).
        apply X.
        -- apply FinFun.Injective_map_NoDup; [intros a b E; injection E as ->; reflexivity|apply (po_kids p K)].
        -- intros x I. right. apply MR, I.
        -- intros A B E. assert (I : In (Wait e) (map Run (e_kids p e))) by (rewrite E; apply in_or_app; right; left; reflexivity). apply MR in I. destruct I as (c & Z & _). discriminate Z.
        -- unfold end_ok. rewrite KE. intros c C. right. left. apply MR. exists c. auto.
        -- constructor.
        -- intros c [].
        -- rewrite KE. discriminate.
        -- rewrite KE. discriminate.
      * destruct (own_ok own (fronts p e)) eqn:OK; [|discriminate S]. injection S as <-. split; [|unfold size; cbn [n_begun n_done n_over n_taken]; rewrite app_length; cbn [length]; lia].
        assert (TO : forall x, In x (tops own) <-> exists c, x = Run c /\ own = Some c).
        { intros x. destruct own as [c|]; cbn [tops]; [split; [intros [<-|[]]; exists c; auto|intros (c' & -> & X); injection X as ->; left; reflexivity]|split; [intros []|intros (c & _ & X); discriminate X]]. }
        pose proof (run_step p W s t e r (tops own ++ [Wait e]) (given own pl (fronts p e)) K V P) as X. replace ((tops own ++ [Wait e]) ++ [End e]) with (tops own ++ [Wait e; End e]) in X by (rewrite <- app_assoc; reflexivity).
        assert (RO : forall c, In (Run c) (tops own ++ [Wait e]) <-> own = Some c).
        { intros c. rewrite snoc_in, TO. split; [intros [(c' & Z & O)|Z]; [injection Z as <-; exact O|discriminate Z]|intros O; left; exists c; auto]. }
        apply X.
        -- apply nodup_snoc; [destruct own; cbn [tops]; [constructor; [intros []|constructor]|constructor]|]. rewrite TO. intros (c & Z & _). discriminate Z.
        -- intros x I. apply snoc_in in I. destruct I as [I| ->]; [|left; auto]. apply TO in I. destruct I as (c & -> & O). right. exists c. split; [reflexivity|]. apply (fronts_in p e c). exact (own_in _ _ _ OK O).
        -- intros A B E. destruct (last_split _ _ _ _ _ E) as [(b' & E1 & _)|(_ & _ & E1)]; [|exact E1]. exfalso. assert (I : In (Wait e) (tops own)) by (rewrite E1; apply in_or_app; right; left; reflexivity). apply TO in I. destruct I as (c & Z & _). discriminate Z.
        -- unfold end_ok. rewrite KE. left. apply snoc_in. right. reflexivity.
        -- apply given_nodup. unfold fronts. apply nodup_filter, (po_kids p K).
        -- intros c I. apply given_in in I. destruct I as [I N]. rewrite RO. split; [|exact N]. apply (fronts_in p e c), I.
        -- intros _ c [I|I]; [apply RO in I; apply (fronts_in p e c); exact (own_in _ _ _ OK I)|apply given_in in I; apply (fronts_in p e c), I].
        -- intros _ c C D. rewrite RO, given_in. assert (F : In c (fronts p e)) by (apply fronts_in; auto). destruct own as [c'|]; [|right; split; [exact F|discriminate]]. destruct (Nat.eq_dec c' c) as [->|N]; [left; reflexivity|right; split; [exact F|congruence]].
    + destruct (forallb _ _) eqn:F; [|discriminate S]. injection S as <-. split; [|unfold size; cbn [n_begun n_done n_over n_taken]; rewrite app_length; cbn [length]; lia].
      apply wait_step; [exact K|exact V|exact P|]. apply all_memb, F.
    + destruct (Nat.eqb e (e_root p) || negb (is_par p (e_par p e))) eqn:C.
      * injection S as <-. split; [|unfold size; cbn [n_begun n_done n_over n_taken]; rewrite app_length; cbn [length]; lia].
        pose proof (end_step p W s t e r None [] K V P) as X. cbn [tops app] in X. rewrite app_nil_r in X. apply X; [constructor|discriminate|intros c [Z|[]]; discriminate Z|].
        intros NR KP. exfalso. apply orb_true_iff in C. destruct C as [C|C]; [apply Nat.eqb_eq in C; contradiction|]. apply negb_true_iff in C. apply is_par_spec in KP. congruence.
      * cbv zeta in S. destruct (own_ok own _) eqn:OK; [|discriminate S]. injection S as <-. split; [|unfold size; cbn [n_begun n_done n_over n_taken]; rewrite (app_length (n_done s)); cbn [length]; lia].
        apply orb_false_iff in C. destruct C as [_ C]. apply negb_false_iff, is_par_spec in C.
        apply end_step; [exact K|exact V|exact P| | | |].
        -- apply given_nodup. unfold freed. apply nodup_filter, (po_kids p K).
        -- intros c O I. apply given_in in I. tauto.
        -- intros c H. assert (F : In c (freed p (n_done s ++ [e]) (e_par p e) e)) by (destruct H as [H|H]; [exact (own_in _ _ _ OK H)|apply given_in in H; tauto]). apply freed_in in F. tauto.
        -- intros _ _ c A B D. rewrite given_in. assert (F : In c (freed p (n_done s ++ [e]) (e_par p e) e)) by (apply freed_in; auto). destruct own as [c'|]; [|right; split; [exact F|discriminate]]. destruct (Nat.eq_dec c' c) as [->|N]; [left; reflexivity|right; split; [exact F|congruence]].
Qed.
Lemma nrun_inv p W R s ls s' : plan_ok p -> ninv p W s -> nrun p W R s ls = Some s' -> ninv p W s' /\ size s + length ls <= size s'.
Proof.
  intros K. revert s. induction ls as [|x r IH]; intros s V E; cbn [nrun] in E; [injection E as ->; cbn; split; [exact V|lia]|].
  destruct (nstep p W R s x) as [s1|] eqn:S; [|discriminate E]. destruct (nstep_inv _ _ _ _ _ _ K V S) as [V1 L]. destruct (IH s1 V1 E) as [V2 L2]. split; [exact V2|]. cbn [length]. lia.
Qed.
Lemma size_bound p W s : ninv p W s -> size s <= 4 * length (e_all p).
Proof.
  intros V. assert (B : forall l, NoDup l -> (forall e, In e l -> In e (n_begun s)) -> length l <= length (n_begun s)) by (intros l N I; apply NoDup_incl_length; [exact N|exact I]).
  assert (BA : length (n_begun s) <= length (e_all p)) by (apply NoDup_incl_length; [apply (v_b p W s V)|]; intros e I; apply (v_all p W s V); right; right; exact I).
  assert (TA : length (n_taken s) <= length (e_all p)).
  { apply NoDup_incl_length; [apply (v_t p W s V)|]. intros e I. apply (v_all p W s V). right. apply (v_taken p W s V e I). }
  pose proof (B _ (v_d p W s V) (v_done p W s V)). pose proof (B _ (v_o p W s V) (v_over p W s V)). unfold size. lia.
Qed.
