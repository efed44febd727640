From Verif Require Import PubConModel PubConSpec RingSpec RingProofs.
From Coq Require Import Lia.
Local Open Scope nat_scope.
Local Open Scope list_scope.

(** * Traces *)
Lemma bound_snoc tr e k c : bound (tr ++ [e]) k c <-> bound tr k c \/ exists t n, e = EBind t k c n.
Proof.
  unfold bound. split.
  - intros (t & n & H). apply in_app_iff in H. destruct H as [H|[H|[]]]; [left; eauto|right; eauto].
  - intros [(t & n & H)|(t & n & ->)]; exists t, n; apply in_app_iff; [now left|right; now left].
Qed.
Lemma bound_app a b k c : bound a k c -> bound (a ++ b) k c.
Proof. intros (t & n & H). exists t, n. apply in_app_iff. now left. Qed.
Lemma last_call t a o b a' o' b' : a ++ ECall t o :: b = a' ++ ECall t o' :: b' -> calls_none t b -> calls_none t b' -> a = a' /\ o = o' /\ b = b'.
Proof.
  intros E H H'. apply app_eq_app in E. destruct E as (l & [[-> E]|[-> E]]).
  - destruct l as [|x l]; cbn in E; [injection E as <- <-; rewrite app_nil_r; auto|]. injection E as <- ->. exfalso. apply (H' o). apply in_app_iff. right. now left.
  - destruct l as [|x l]; cbn in E; [injection E as <- <-; rewrite app_nil_r; auto|]. injection E as <- ->. exfalso. apply (H o'). apply in_app_iff. right. now left.
Qed.
Lemma mine_none t b : (forall e, In e (filter (mine t) b) -> forall o, e <> ECall t o) -> calls_none t b.
Proof. intros H o X. apply (H (ECall t o)) with (o := o); [|reflexivity]. apply filter_In. split; [exact X|]. cbn. apply Nat.eqb_refl. Qed.
Lemma did_none t o r a b : call_did t o r a b -> calls_none t b.
Proof.
  intro H. apply mine_none. intros e IN o'. destruct o as [k n p|k v g|c]; cbn in H.
  - destruct H as (c & _ & F & _). rewrite F in IN. destruct IN as [<-|[]]. discriminate.
  - destruct H as [(_ & l & F & _)|(_ & F & _)]; rewrite F in IN; [|destruct IN]. apply in_map_iff in IN. destruct IN as (c & <- & _). discriminate.
  - destruct H as [(v & _ & F)|[(_ & F)|(_ & F & _)]]; rewrite F in IN; [destruct IN as [<-|[]]; discriminate|destruct IN|destruct IN].
Qed.
Lemma answered_snoc tr e : answered tr -> (forall t o r, e = ERet t o r -> exists a b, tr = a ++ ECall t o :: b /\ call_did t o r a b) -> answered (tr ++ [e]).
Proof.
  intros A H a t o b r d E NC. destruct d as [|x d _] using rev_ind.
  - assert (X : tr ++ [e] = (a ++ ECall t o :: b) ++ [ERet t o r]) by (rewrite E, <- app_assoc; reflexivity). apply app_inj_tail in X. destruct X as [X ->].
    destruct (H t o r eq_refl) as (a' & b' & E' & D). rewrite E' in X. symmetry in X. apply last_call in X; [|exact NC|now apply did_none in D]. destruct X as (-> & _ & ->). exact D.
  - assert (X : tr ++ [e] = (a ++ ECall t o :: b ++ ERet t o r :: d) ++ [x]) by (rewrite E; rewrite <- !app_assoc; cbn; now rewrite <- !app_assoc). apply app_inj_tail in X. destruct X as [X _]. exact (A _ _ _ _ _ _ X NC).
Qed.
Lemma queued_snoc tr e : queued tr ->
  match e with
  | EPop _ c v => exists n q, inbox (rev tr) c = Some (n, v :: q)
  | EPush _ c v g => exists n q, inbox (rev tr) c = Some (n, q) /\ (g = SWait -> length q < n - 1)
  | EBind _ _ c _ => inbox (rev tr) c = None
  | _ => True
  end -> queued (tr ++ [e]).
Proof.
  intros Q H a x b E. destruct b as [|y b _] using rev_ind.
  - apply app_inj_tail in E. destruct E as [-> ->]. exact H.
  - rewrite app_comm_cons, app_assoc in E. apply app_inj_tail in E. destruct E as [-> _]. exact (Q _ _ _ eq_refl).
Qed.

(** * The data *)
Record data (st : nat -> list nat) (q : nat -> option rb) (nx : nat) (tr : list bev) : Prop := mk_data
  { d_q : forall c, match inbox (rev tr) c with None => q c = None | Some (n, l) => 2 <= n /\ exists b, q c = Some b /\ rep n l b end;
    d_set : forall k c, In c (st k) <-> bound tr k c;
    d_nd : forall k, NoDup (st k);
    d_bnd : forall k c, bound tr k c -> inbox (rev tr) c <> None;
    d_box : forall c, inbox (rev tr) c <> None -> c <= nx;
    d_queued : queued tr }.
Lemma data_new : data (bs_set bs_new) (bs_q bs_new) 0 [].
Proof.
  constructor; cbn; try easy.
  - intros k c. split; [easy|]. now intros (t & n & []).
  - intro k. constructor.
  - intros k c (t & n & []).
  - intros a e b E. now destruct a.
Qed.
Lemma data_plain st q nx tr e : (forall t k c n, e <> EBind t k c n) -> (forall t c v g, e <> EPush t c v g) -> (forall t c v, e <> EPop t c v) -> data st q nx tr -> data st q nx (tr ++ [e]).
Proof.
  intros N1 N2 N3 D. assert (IB : forall c, inbox (rev (tr ++ [e])) c = inbox (rev tr) c).
  { intro c. rewrite rev_app_distr. cbn. destruct e; try reflexivity; exfalso; [eapply N1|eapply N2|eapply N3]; reflexivity. }
  assert (BD : forall k c, bound (tr ++ [e]) k c <-> bound tr k c).
  { intros k c. rewrite bound_snoc. split; [intros [H|(t & n & H)]; [exact H|now apply N1 in H]|auto]. }
  constructor.
  - intro c. rewrite IB. apply (d_q _ _ _ _ D).
  - intros k c. rewrite BD. apply (d_set _ _ _ _ D).
  - apply (d_nd _ _ _ _ D).
  - intros k c. rewrite BD, IB. apply (d_bnd _ _ _ _ D).
  - intros c. rewrite IB. apply (d_box _ _ _ _ D).
  - apply queued_snoc; [apply (d_queued _ _ _ _ D)|]. destruct e; try exact Logic.I; exfalso; [eapply N1|eapply N2|eapply N3]; reflexivity.
Qed.
Lemma in_insert_at pos a l x : In x (insert_at pos a l) <-> x = a \/ In x l.
Proof. unfold insert_at. rewrite in_app_iff. cbn. rewrite <- (firstn_skipn pos l) at 3. rewrite in_app_iff. intuition. Qed.
Lemma nodup_insert_at pos a l : ~ In a l -> NoDup l -> NoDup (insert_at pos a l).
Proof. intros H1 H2. unfold insert_at. apply NoDup_Add with (a := a) (l := firstn pos l ++ skipn pos l); [apply Add_app|]. now rewrite firstn_skipn. Qed.
Lemma data_bind st q nx tr t k n pos : 2 <= n -> data st q nx tr ->
  data (upd st k (insert_at pos (S nx) (st k))) (upd q (S nx) (Some (rb_new n))) (S nx) (tr ++ [EBind t k (S nx) n]).
Proof.
  intros N2 D.
  assert (FR : inbox (rev tr) (S nx) = None) by (destruct (inbox (rev tr) (S nx)) eqn:X; [|reflexivity]; pose proof (d_box _ _ _ _ D (S nx)); rewrite X in H; assert (S nx <= nx) by (apply H; discriminate); lia).
  assert (NB : forall k', ~ bound tr k' (S nx)) by (intros k' H; apply (d_bnd _ _ _ _ D) in H; contradiction).
  assert (IB : forall c, inbox (rev (tr ++ [EBind t k (S nx) n])) c = if Nat.eqb c (S nx) then Some (n, []) else inbox (rev tr) c) by (intro c; rewrite rev_app_distr; reflexivity).
  constructor.
  - intro c. rewrite IB. destruct (Nat.eqb_spec c (S nx)) as [->|NE].
    + split; [exact N2|]. exists (rb_new n). rewrite upd_same. split; [reflexivity|]. apply rep_new. lia.
    + rewrite upd_other by exact NE. apply (d_q _ _ _ _ D).
  - intros k' c. rewrite bound_snoc. destruct (Nat.eq_dec k' k) as [->|NE].
    + rewrite upd_same, in_insert_at, (d_set _ _ _ _ D). split; [intros [->|H]; [right; eauto|now left]|]. intros [H|(t' & n' & H)]; [now right|left; congruence].
    + rewrite upd_other by exact NE. rewrite (d_set _ _ _ _ D). split; [now left|]. intros [H|(t' & n' & H)]; [exact H|congruence].
  - intro k'. destruct (Nat.eq_dec k' k) as [->|NE]; [rewrite upd_same|rewrite upd_other by exact NE; apply (d_nd _ _ _ _ D)].
    apply nodup_insert_at; [|apply (d_nd _ _ _ _ D)]. intro H. apply (d_set _ _ _ _ D) in H. exact (NB _ H).
  - intros k' c. rewrite bound_snoc, IB. destruct (Nat.eqb_spec c (S nx)); [discriminate|]. intros [H|(t' & n' & H)]; [now apply (d_bnd _ _ _ _ D) in H|congruence].
  - intros c. rewrite IB. destruct (Nat.eqb_spec c (S nx)) as [->|NE]; [lia|]. intro H. apply (d_box _ _ _ _ D) in H. lia.
  - apply queued_snoc; [apply (d_queued _ _ _ _ D)|exact FR].
Qed.
Lemma data_other st q nx tr e c0 b n l l' : (forall t k c n, e <> EBind t k c n) -> (forall c, inbox (rev (tr ++ [e])) c = if Nat.eqb c c0 then Some (n, l') else inbox (rev tr) c) ->
  inbox (rev tr) c0 = Some (n, l) -> rep n l' b -> queued (tr ++ [e]) -> data st q nx tr -> data st (upd q c0 (Some b)) nx (tr ++ [e]).
Proof.
  intros N1 IB I0 R Q D. assert (BD : forall k c, bound (tr ++ [e]) k c <-> bound tr k c).
  { intros k c. rewrite bound_snoc. split; [intros [H|(t & m & H)]; [exact H|now apply N1 in H]|auto]. }
  constructor.
  - intro c. rewrite IB. pose proof (d_q _ _ _ _ D c) as X. destruct (Nat.eqb_spec c c0) as [->|NE].
    + rewrite I0 in X. split; [apply X|]. exists b. now rewrite upd_same.
    + rewrite upd_other by exact NE. exact X.
  - intros k c. rewrite BD. apply (d_set _ _ _ _ D).
  - apply (d_nd _ _ _ _ D).
  - intros k c H. rewrite IB. destruct (Nat.eqb c c0); [discriminate|]. apply BD in H. now apply (d_bnd _ _ _ _ D) in H.
  - intros c. rewrite IB. destruct (Nat.eqb_spec c c0) as [->|NE]; [intros _; apply (d_box _ _ _ _ D); rewrite I0; discriminate|apply (d_box _ _ _ _ D)].
  - exact Q.
Qed.
(** A push into a connection that exists: what comes out. *)
Lemma push_data st q nx tr c b v g : data st q nx tr -> q c = Some b -> exists n l b', inbox (rev tr) c = Some (n, l) /\ 2 <= n /\
  rb_push v g b = Some (b', if length l <? n - 1 then PStored else match g with SWait => PBlocked | SReplace => PStored | SDrop => PDropped end) /\ rep n (q_push n v g l) b'.
Proof.
  intros D Q. pose proof (d_q _ _ _ _ D c) as X. destruct (inbox (rev tr) c) as [[n l]|]; [|congruence]. destruct X as (N2 & b0 & Q0 & R). assert (b0 = b) by congruence. subst b0.
  destruct (rb_push_rep n l b v g N2 R) as (b' & E & R'). exists n, l, b'. auto.
Qed.
Lemma data_push st q nx tr t c b v g b' p : data st q nx tr -> q c = Some b -> rb_push v g b = Some (b', p) -> p <> PBlocked -> data st (upd q c (Some b')) nx (tr ++ [EPush t c v g]).
Proof.
  intros D Q E P. destruct (push_data st q nx tr c b v g D Q) as (n & l & b2 & I & N2 & E2 & R). rewrite E in E2. injection E2 as <- ->.
  eapply data_other; [discriminate| |exact I|exact R| |exact D].
  - intro c'. rewrite rev_app_distr. cbn. destruct (Nat.eqb_spec c' c) as [->|]; [now rewrite I|reflexivity].
  - apply queued_snoc; [apply (d_queued _ _ _ _ D)|]. exists n, l. split; [exact I|]. intros ->. destruct (Nat.ltb_spec (length l) (n - 1)); [assumption|now destruct P].
Qed.
Lemma pop_data st q nx tr c b : data st q nx tr -> q c = Some b -> exists n l, inbox (rev tr) c = Some (n, l) /\ 2 <= n /\
  match l with [] => rb_pop b = Some (b, None) | x :: r => exists b', rb_pop b = Some (b', Some (Some x)) /\ rep n r b' end.
Proof.
  intros D Q. pose proof (d_q _ _ _ _ D c) as X. destruct (inbox (rev tr) c) as [[n l]|]; [|congruence]. destruct X as (N2 & b0 & Q0 & R). assert (b0 = b) by congruence. subst b0.
  exists n, l. split; [reflexivity|]. split; [exact N2|]. unfold rb_pop. rewrite (rep_empty n l b) by (lia || easy). destruct l as [|x r]; cbn [length Nat.eqb]; [reflexivity|].
  destruct (rep_take n x r b R) as (b' & E & R'). exists b'. now rewrite E.
Qed.
Lemma data_pop st q nx tr t c b v b' : data st q nx tr -> q c = Some b -> rb_pop b = Some (b', Some (Some v)) -> data st (upd q c (Some b')) nx (tr ++ [EPop t c v]).
Proof.
  intros D Q E. destruct (pop_data st q nx tr c b D Q) as (n & l & I & N2 & X). destruct l as [|x r]; [congruence|]. destruct X as (b2 & E2 & R). rewrite E in E2. injection E2 as <- <-.
  eapply data_other; [discriminate| |exact I|exact R| |exact D].
  - intro c'. rewrite rev_app_distr. cbn. destruct (Nat.eqb_spec c' c) as [->|]; [now rewrite I|reflexivity].
  - apply queued_snoc; [apply (d_queued _ _ _ _ D)|]. now exists n, r.
Qed.

(** * The threads *)
Definition op_of (p : bpc) : option bop :=
  match p with BIdle => None | BWant o | BLook o | BChange o | BOut o _ => Some o | BLoop k v g _ => Some (OPub k v g) | BPop c => Some (OSub c) end.
Definition cur (t : nat) (p : bpc) (tr : list bev) : Prop :=
  match p with
  | BIdle => True
  | BWant o | BLook o | BChange o => exists a b, tr = a ++ ECall t o :: b /\ filter (mine t) b = []
  | BPop c => exists a b, tr = a ++ ECall t (OSub c) :: b /\ filter (mine t) b = []
  | BLoop k v g rest => exists a b dn, tr = a ++ ECall t (OPub k v g) :: b /\ filter (mine t) b = map (fun c => EPush t c v g) dn /\ NoDup (dn ++ rest) /\
      (forall c, bound a k c -> In c (dn ++ rest)) /\ (forall c, In c (dn ++ rest) -> bound (a ++ b) k c)
  | BOut o r => exists a b, tr = a ++ ECall t o :: b /\ call_did t o r a b
  end.
Lemma filter_none t es : (forall e, In e es -> mine t e = false) -> filter (mine t) es = [].
Proof. induction es as [|e es IH]; intro H; [reflexivity|]. cbn. rewrite H by now left. apply IH. intros x X. apply H. now right. Qed.
Lemma did_grow t o r a b es : (forall e, In e es -> mine t e = false) -> call_did t o r a b -> call_did t o r a (b ++ es).
Proof.
  intros H D. assert (F : filter (mine t) (b ++ es) = filter (mine t) b) by (rewrite filter_app, (filter_none t es H); apply app_nil_r).
  destruct o as [k n p|k v g|c]; cbn in *; rewrite F; try exact D.
  destruct D as [(E & l & D1 & D2 & D3 & D4)|D]; [left|now right]. split; [exact E|]. exists l. repeat split; auto. intros c C. rewrite app_assoc. apply bound_app. now apply D4.
Qed.
Lemma cur_grow t p tr es : (forall e, In e es -> mine t e = false) -> cur t p tr -> cur t p (tr ++ es).
Proof.
  intros H C. assert (F : forall b, filter (mine t) (b ++ es) = filter (mine t) b) by (intro b; rewrite filter_app, (filter_none t es H); apply app_nil_r).
  destruct p as [|o|o|o|k v g rest|c|o r]; cbn in *; [exact Logic.I|..].
  - destruct C as (a & b & -> & X). exists a, (b ++ es). rewrite F. split; [now rewrite <- app_assoc|exact X].
  - destruct C as (a & b & -> & X). exists a, (b ++ es). rewrite F. split; [now rewrite <- app_assoc|exact X].
  - destruct C as (a & b & -> & X). exists a, (b ++ es). rewrite F. split; [now rewrite <- app_assoc|exact X].
  - destruct C as (a & b & dn & -> & X1 & X2 & X3 & X4). exists a, (b ++ es), dn. rewrite F. split; [now rewrite <- app_assoc|]. repeat split; auto. intros c C. rewrite app_assoc. apply bound_app. now apply X4.
  - destruct C as (a & b & -> & X). exists a, (b ++ es). rewrite F. split; [now rewrite <- app_assoc|exact X].
  - destruct C as (a & b & -> & X). exists a, (b ++ es). split; [now rewrite <- app_assoc|now apply did_grow].
Qed.
Section N.
Variable N : nat.
Definition is_bind (o : bop) : bool := match o with OBind _ _ _ => true | _ => false end.
Definition holds (p : bpc) : bool := match p with BLook o | BChange o | BOut o _ => is_bind o | _ => false end.
Record ctrl (lk : option nat) (pc : nat -> bpc) (tr : list bev) : Prop := mk_ctrl
  { c_cur : forall t, cur t (pc t) tr;
    c_ans : answered tr;
    c_lock : forall t, lk = Some t <-> holds (pc t) = true;
    c_size : forall t k n p, op_of (pc t) = Some (OBind k n p) -> 2 <= n;
    c_chg : forall t o, pc t = BChange o -> is_bind o = true;
    c_N : forall t, pc t <> BIdle -> t < N }.
Lemma ctrl_new : ctrl None (fun _ => BIdle) [].
Proof. constructor; cbn; try easy. intros a t o b r d E. now destruct a. Qed.
Lemma ctrl_move lk pc tr t p es lk' : ctrl lk pc tr -> (forall e, In e es -> forall u, mine u e = Nat.eqb u t) -> cur t p (tr ++ es) -> answered (tr ++ es) ->
  (lk' = lk /\ holds p = holds (pc t) \/ lk = None /\ lk' = Some t /\ holds p = true \/ holds (pc t) = true /\ lk' = None /\ holds p = false) ->
  (forall k n q, op_of p = Some (OBind k n q) -> 2 <= n) -> (forall o, p = BChange o -> is_bind o = true) -> t < N -> ctrl lk' (upd pc t p) (tr ++ es).
Proof.
  intros C M CU A L SZ CH TN. constructor.
  - intro u. destruct (Nat.eq_dec u t) as [->|NE]; [now rewrite upd_same|rewrite upd_other by exact NE]. apply cur_grow; [|apply (c_cur _ _ _ C)].
    intros e E. rewrite (M e E u). now apply Nat.eqb_neq.
  - exact A.
  - intro u. pose proof (c_lock _ _ _ C u) as LU. pose proof (c_lock _ _ _ C t) as LT. destruct (Nat.eq_dec u t) as [->|NE]; [rewrite upd_same|rewrite upd_other by exact NE].
    + destruct L as [[-> ->]|[(_ & -> & ->)|(_ & -> & ->)]]; [exact LT|now split|now split].
    + destruct L as [[-> _]|[(-> & -> & _)|(H & -> & _)]]; [exact LU| |].
      * rewrite <- LU. split; [intro X; injection X as <-; now destruct NE|discriminate].
      * rewrite <- LU. apply LT in H. split; [discriminate|]. intro X. rewrite H in X. injection X as <-. now destruct NE.
  - intros u k n q. destruct (Nat.eq_dec u t) as [->|NE]; [rewrite upd_same; apply SZ|rewrite upd_other by exact NE; apply (c_size _ _ _ C)].
  - intros u o. destruct (Nat.eq_dec u t) as [->|NE]; [rewrite upd_same; apply CH|rewrite upd_other by exact NE; apply (c_chg _ _ _ C)].
  - intro u. destruct (Nat.eq_dec u t) as [->|NE]; [intros _; exact TN|rewrite upd_other by exact NE; apply (c_N _ _ _ C)].
Qed.
Definition binv (s : bst) : Prop := data (bs_set s) (bs_q s) (bs_next s) (bs_tr s) /\ ctrl (bs_lock s) (bs_pc s) (bs_tr s).
Lemma binv_new : binv bs_new.
Proof. split; [apply data_new|apply ctrl_new]. Qed.
Lemma moved s t p es s' : move_to N s t p es = BRun s' -> s' = mkBS (bs_set s) (bs_q s) (bs_next s) (bs_lock s) (upd (bs_pc s) t p) (bs_tr s ++ es) /\ race N s t p = false.
Proof. unfold move_to. destruct (race N s t p); [discriminate|]. intro E. injection E as <-. now split. Qed.
Ltac stay := rewrite app_nil_r; assumption.
Lemma bstep_inv s l s' : binv s -> (forall t k n p, l = LCall t (OBind k n p) -> 2 <= n) -> bstep N s l = BRun s' -> binv s'.
Proof.
  intros [D C] HL E. destruct l as [t o|t|t]; cbn [bstep] in E.
  - destruct (Nat.ltb_spec t N) as [TN|]; [|discriminate]. destruct (bs_pc s t) eqn:P; try discriminate. apply moved in E. destruct E as [-> _]. split; cbn [bs_set bs_q bs_next bs_lock bs_pc bs_tr].
    + apply data_plain; auto; discriminate.
    + apply (ctrl_move (bs_lock s)); auto.
      * intros e [<-|[]] u. cbn. apply Nat.eqb_sym.
      * exists (bs_tr s), []. now split.
      * apply answered_snoc; [apply (c_ans _ _ _ C)|discriminate].
      * left. now rewrite P.
      * cbn. intros k n q X. injection X as ->. eapply HL. reflexivity.
      * discriminate.
  - assert (TN : bs_pc s t <> BIdle -> t < N) by apply (c_N _ _ _ C). pose proof (c_cur _ _ _ C t) as CU. pose proof (c_size _ _ _ C t) as SZ. pose proof (c_ans _ _ _ C) as AN.
    assert (STAY : forall p lk', cur t p (bs_tr s) -> (lk' = bs_lock s /\ holds p = holds (bs_pc s t) \/ bs_lock s = None /\ lk' = Some t /\ holds p = true) ->
       (forall k n q, op_of p = Some (OBind k n q) -> 2 <= n) -> (forall o, p = BChange o -> is_bind o = true) -> bs_pc s t <> BIdle ->
       binv (mkBS (bs_set s) (bs_q s) (bs_next s) lk' (upd (bs_pc s) t p) (bs_tr s ++ []))).
    { intros p lk' H1 H2 H3 H4 H5. split; cbn [bs_set bs_q bs_next bs_lock bs_pc bs_tr]; [stay|]. apply (ctrl_move (bs_lock s)); auto; try stay; [easy|]. destruct H2 as [H2|H2]; auto. }
    destruct (bs_pc s t) as [|o|o|o|k v g rest|c|o r] eqn:P; [discriminate| | | | | |].
    + assert (NI : BWant o <> BIdle) by discriminate. destruct o as [k n p|k v g|c].
      * destruct (bs_lock s) eqn:L; [discriminate|]. apply moved in E. destruct E as [-> _]. cbn [set_lock bs_set bs_q bs_next bs_lock bs_pc bs_tr]. apply STAY; auto; discriminate.
      * apply moved in E. destruct E as [-> _]. apply STAY; auto; discriminate.
      * apply moved in E. destruct E as [-> _]. apply STAY; auto; discriminate.
    + assert (NI : BLook o <> BIdle) by discriminate. destruct o as [k n p|k v g|c].
      * apply moved in E. destruct E as [-> _]. apply STAY; auto. intros o X. now injection X as <-.
      * destruct (bs_set s k) as [|c0 l0] eqn:S; apply moved in E; destruct E as [-> _]; apply STAY; auto; try discriminate.
        -- destruct CU as (a & b & ET & F). exists a, b. split; [exact ET|]. right. split; [reflexivity|]. split; [exact F|]. intros c H. assert (IN : In c (bs_set s k)) by (apply (d_set _ _ _ _ D); rewrite ET; now apply bound_app). rewrite S in IN. exact IN.
        -- destruct CU as (a & b & ET & F). exists a, b, []. split; [exact ET|]. split; [exact F|]. cbn [app]. rewrite <- S. split; [apply (d_nd _ _ _ _ D)|]. split.
           ++ intros c H. apply (d_set _ _ _ _ D). rewrite ET. now apply bound_app.
           ++ intros c H. apply (d_set _ _ _ _ D) in H. rewrite ET in H. destruct H as (t' & n' & H). exists t', n'. apply in_app_iff in H. apply in_app_iff. destruct H as [H|[H|H]]; [now left|discriminate|now right].
      * destruct (bs_q s c) as [b0|] eqn:Q; apply moved in E; destruct E as [-> _]; apply STAY; auto; try discriminate.
        destruct CU as (a & b & ET & F). exists a, b. split; [exact ET|]. right. right. split; [reflexivity|]. split; [exact F|]. intros k H. assert (B : bound (bs_tr s) k c) by (rewrite ET; now apply bound_app).
        apply (d_bnd _ _ _ _ D) in B. pose proof (d_q _ _ _ _ D c) as X. destruct (inbox (rev (bs_tr s)) c) as [[n l]|]; [|now apply B]. destruct X as (_ & b1 & X & _). congruence.
    + destruct o as [k n p|k v g|c]; [|discriminate|discriminate]. apply moved in E. destruct E as [-> _]. cbn [bs_set bs_q bs_next bs_lock bs_pc bs_tr]. split; cbn [bs_set bs_q bs_next bs_lock bs_pc bs_tr].
      * apply data_bind; [|exact D]. eapply SZ. reflexivity.
      * apply (ctrl_move (bs_lock s)); auto; try discriminate.
        -- intros e [<-|[]] u. cbn. apply Nat.eqb_sym.
        -- destruct CU as (a & b & ET & F). exists a, (b ++ [EBind t k (S (bs_next s)) n]). split; [rewrite ET, <- app_assoc; reflexivity|]. exists (S (bs_next s)). split; [reflexivity|]. rewrite filter_app, F. cbn. rewrite Nat.eqb_refl. split; [reflexivity|].
           intros k' H. assert (B : bound (bs_tr s) k' (S (bs_next s))) by (rewrite ET; now apply bound_app). apply (d_bnd _ _ _ _ D), (d_box _ _ _ _ D) in B. lia.
        -- apply answered_snoc; [exact AN|discriminate].
        -- left. now rewrite P.
        -- apply TN. discriminate.
    + destruct rest as [|c rest].
      * apply moved in E. destruct E as [-> _]. apply STAY; auto; try discriminate. destruct CU as (a & b & dn & ET & F & ND & H1 & H2). rewrite app_nil_r in *. exists a, b. split; [exact ET|]. left. split; [reflexivity|]. exists dn. auto.
      * destruct (bs_q s c) as [b0|] eqn:Q; [|discriminate]. destruct (rb_push v g b0) as [[b' p]|] eqn:PU; [|discriminate].
        assert (E' : move_to N (set_q s c b') t (BLoop k v g rest) [EPush t c v g] = BRun s' /\ p <> PBlocked) by (destruct p; try (split; [exact E|discriminate]); discriminate). clear E. destruct E' as [E NB].
        apply moved in E. destruct E as [-> _]. unfold set_q. split; cbn [bs_set bs_q bs_next bs_lock bs_pc bs_tr].
        -- eapply data_push; eassumption.
        -- apply (ctrl_move (bs_lock s)); auto; try discriminate.
           ++ intros e [<-|[]] u. cbn. apply Nat.eqb_sym.
           ++ destruct CU as (a & b & dn & ET & F & ND & H1 & H2). exists a, (b ++ [EPush t c v g]), (dn ++ [c]). split; [rewrite ET, <- app_assoc; reflexivity|].
              rewrite filter_app, F, map_app. cbn. rewrite Nat.eqb_refl, <- app_assoc. split; [reflexivity|]. split; [exact ND|]. split; [exact H1|]. intros c' H. rewrite app_assoc. apply bound_app. now apply H2.
           ++ apply answered_snoc; [exact AN|discriminate].
           ++ left. now rewrite P.
           ++ apply TN. discriminate.
    + destruct (bs_q s c) as [b0|] eqn:Q; [|discriminate]. destruct (rb_pop b0) as [[b' [[v|]|]]|] eqn:PO; try discriminate. apply moved in E. destruct E as [-> _]. unfold set_q. split; cbn [bs_set bs_q bs_next bs_lock bs_pc bs_tr].
      * eapply data_pop; eassumption.
      * apply (ctrl_move (bs_lock s)); auto; try discriminate.
        -- intros e [<-|[]] u. cbn. apply Nat.eqb_sym.
        -- destruct CU as (a & b & ET & F). exists a, (b ++ [EPop t c v]). split; [rewrite ET, <- app_assoc; reflexivity|]. left. exists v. rewrite filter_app, F. cbn. now rewrite Nat.eqb_refl.
        -- apply answered_snoc; [exact AN|discriminate].
        -- left. now rewrite P.
        -- apply TN. discriminate.
    + set (s1 := match o with OBind _ _ _ => set_lock s None | _ => s end) in E. assert (S1 : bs_set s1 = bs_set s /\ bs_q s1 = bs_q s /\ bs_next s1 = bs_next s /\ bs_pc s1 = bs_pc s /\ bs_tr s1 = bs_tr s /\ bs_lock s1 = if is_bind o then None else bs_lock s) by (destruct o; now repeat split).
      destruct S1 as (S1 & S2 & S3 & S4 & S5 & S6). apply moved in E. destruct E as [-> _]. rewrite S1, S2, S3, S4, S5, S6. split; cbn [bs_set bs_q bs_next bs_lock bs_pc bs_tr].
      * apply data_plain; auto; discriminate.
      * apply (ctrl_move (bs_lock s)); auto; try discriminate.
        -- intros e [<-|[]] u. cbn. apply Nat.eqb_sym.
        -- exact Logic.I.
        -- apply answered_snoc; [exact AN|]. intros t' o' r' X. injection X as <- <- <-. exact CU.
        -- rewrite P. cbn [holds]. destruct (is_bind o); auto.
        -- apply TN. discriminate.
  - destruct (bs_pc s t) as [|o|o|o|k v g rest|c|o r] eqn:P; try discriminate. destruct (bs_q s c) as [b0|] eqn:Q; [|discriminate]. destruct (rb_pop b0) as [[b' [x|]]|] eqn:PO; try discriminate.
    apply moved in E. destruct E as [-> _]. split; cbn [bs_set bs_q bs_next bs_lock bs_pc bs_tr]; [stay|]. pose proof (c_cur _ _ _ C t) as CU. rewrite P in CU. pose proof (c_ans _ _ _ C) as AN. apply (ctrl_move (bs_lock s)); auto; try stay; try discriminate; [easy| | |].
    + rewrite app_nil_r. destruct CU as (a & b & ET & F). exists a, b. split; [exact ET|]. right. left. now split.
    + left. now rewrite P.
    + apply (c_N _ _ _ C). rewrite P. discriminate.
Qed.
Lemma brun_inv ls : forall s s', binv s -> roomy ls -> brun N s ls = BRun s' -> binv s'.
Proof.
  induction ls as [|l ls IH]; intros s s' I R E; cbn in E; [injection E as <-; exact I|]. destruct (bstep N s l) as [s1| |] eqn:E1; try discriminate.
  eapply IH; [| |exact E].
  - eapply bstep_inv; [exact I| |exact E1]. intros t k n p ->. apply (R (OBind k n p)). exists t. now left.
  - intros o (t & X). apply R. exists t. now right.
Qed.
End N.

(** * Delivery *)
Lemma sq_refl l : subseq l l.
Proof. induction l; now constructor. Qed.
Lemma sq_app a b c d : subseq a b -> subseq c d -> subseq (a ++ c) (b ++ d).
Proof. intros H K. induction H; cbn; [exact K|now constructor|now constructor]. Qed.
Lemma sq_none l : subseq [] l.
Proof. induction l; now constructor. Qed.
Lemma sq_trans a b c : subseq a b -> subseq b c -> subseq a c.
Proof.
  intros H K. revert a H. induction K as [|x l m K IH|x l m K IH]; intros a H; [exact H| |constructor; now apply IH].
  inversion H; subst; constructor; now apply IH.
Qed.
Lemma pushed_app c a b : pushed c (a ++ b) = pushed c a ++ pushed c b.
Proof. apply flat_map_app. Qed.
Lemma popped_app c a b : popped c (a ++ b) = popped c a ++ popped c b.
Proof. apply flat_map_app. Qed.
Lemma queued_cut a b : queued (a ++ b) -> queued a.
Proof. intros H x e y E. apply (H x e (y ++ b)). now rewrite E, <- app_assoc. Qed.
Definition rest_of (tr : list bev) (c : nat) : list nat := match inbox (rev tr) c with Some (_, q) => q | None => [] end.
Lemma deliver_gen c tr : queued tr -> subseq (popped c tr ++ rest_of tr c) (pushed c tr) /\ (forall t k n, In (EBind t k c n) tr -> exists q, inbox (rev tr) c = Some (n, q)) /\
  ((forall t v g, In (EPush t c v g) tr -> g = SWait) -> pushed c tr = popped c tr ++ rest_of tr c).
Proof.
  induction tr as [|e tr IH] using rev_ind; intro Q; [cbn; repeat split; [constructor|intros t k n []]|].
  specialize (IH (queued_cut _ _ Q)). destruct IH as (IH1 & IH2 & IH3). specialize (Q tr e [] eq_refl).
  rewrite pushed_app, popped_app. unfold rest_of in *. rewrite rev_app_distr. cbn [rev app].
  assert (SW : (forall t v g, In (EPush t c v g) (tr ++ [e]) -> g = SWait) -> forall t v g, In (EPush t c v g) tr -> g = SWait) by (intros H t v g X; apply (H t v g); apply in_app_iff; now left).
  destruct e as [t o|t o r|t k c' n|t c' v g|t c' v]; cbn [inbox pushed popped flat_map app] in *.
  - rewrite !app_nil_r. split; [exact IH1|]. split; [|intro H; apply IH3; exact (SW H)]. intros t' k' n' X. apply in_app_iff in X. destruct X as [X|[X|[]]]; [eauto|discriminate].
  - rewrite !app_nil_r. split; [exact IH1|]. split; [|intro H; apply IH3; exact (SW H)]. intros t' k' n' X. apply in_app_iff in X. destruct X as [X|[X|[]]]; [eauto|discriminate].
  - rewrite !app_nil_r. destruct (Nat.eqb_spec c c') as [<-|NE].
    + rewrite Q in *. split; [exact IH1|]. split; [|intro H; apply IH3; exact (SW H)]. intros t' k' n' X. apply in_app_iff in X. destruct X as [X|[X|[]]]; [destruct (IH2 _ _ _ X); discriminate|]. injection X as _ _ ->. eauto.
    + split; [exact IH1|]. split; [|intro H; apply IH3; exact (SW H)]. intros t' k' n' X. apply in_app_iff in X. destruct X as [X|[X|[]]]; [eauto|congruence].
  - rewrite ?app_nil_r. destruct (Nat.eqb_spec c c') as [<-|NE].
    + destruct Q as (n & q & I & W). rewrite I in *. split; [|split].
      * unfold q_push. destruct (length q <? n - 1); [rewrite app_assoc; apply sq_app; [exact IH1|apply sq_refl]|].
        destruct g; [| |].
        all: try (eapply sq_trans; [exact IH1|]; rewrite <- (app_nil_r (pushed c tr)) at 1; apply sq_app; [apply sq_refl|apply sq_none]).
        rewrite app_assoc. apply sq_app; [|apply sq_refl]. eapply sq_trans; [|exact IH1]. apply sq_app; [apply sq_refl|]. destruct q; cbn; [apply sq_refl|constructor; apply sq_refl].
      * intros t' k' n' X. apply in_app_iff in X. destruct X as [X|[X|[]]]; [|discriminate]. destruct (IH2 _ _ _ X) as (q' & Y). injection Y as -> ->. eauto.
      * intro H. rewrite (IH3 (SW H)). assert (g = SWait) as -> by (apply (H t v); apply in_app_iff; right; now left). unfold q_push. specialize (W eq_refl). apply Nat.ltb_lt in W. rewrite W. now rewrite app_assoc.
    + rewrite ?app_nil_r. split; [exact IH1|]. split; [|intro H; apply IH3; exact (SW H)]. intros t' k' n' X. apply in_app_iff in X. destruct X as [X|[X|[]]]; [eauto|discriminate].
  - rewrite ?app_nil_r. destruct (Nat.eqb_spec c c') as [<-|NE].
    + destruct Q as (n & q & I). rewrite I in *. cbn [tl]. rewrite <- app_assoc. cbn [app]. split; [exact IH1|]. split; [|intro H; apply IH3; exact (SW H)].
      intros t' k' n' X. apply in_app_iff in X. destruct X as [X|[X|[]]]; [|discriminate]. destruct (IH2 _ _ _ X) as (q' & Y). injection Y as <- _. eauto.
    + rewrite ?app_nil_r. split; [exact IH1|]. split; [|intro H; apply IH3; exact (SW H)]. intros t' k' n' X. apply in_app_iff in X. destruct X as [X|[X|[]]]; [eauto|discriminate].
Qed.

(** * Which calls are under way *)
Section N2.
Variable N : nat.
Variable P : bop -> Prop.
Variable R : nat -> strategy -> Prop.
Hypothesis PR : forall k v g, P (OPub k v g) -> R v g.
Definition every (s : bst) : Prop := (forall t o, op_of (bs_pc s t) = Some o -> P o) /\ forall t c v g, In (EPush t c v g) (bs_tr s) -> R v g.
Lemma every_move s1 s t p es s' : move_to N s1 t p es = BRun s' -> bs_pc s1 = bs_pc s -> bs_tr s1 = bs_tr s -> every s -> (forall o, op_of p = Some o -> P o) ->
  (forall u c v g, In (EPush u c v g) es -> R v g) -> every s'.
Proof.
  intros E E1 E2 [H1 H2] H3 H4. apply moved in E. destruct E as [-> _]. rewrite E1, E2. split; cbn [bs_pc bs_tr].
  - intros u o. destruct (Nat.eq_dec u t) as [->|NE]; [rewrite upd_same; apply H3|rewrite upd_other by exact NE; apply H1].
  - intros u c v g X. apply in_app_iff in X. destruct X as [X|X]; eauto.
Qed.
Lemma every_step s l s' : every s -> (forall t o, l = LCall t o -> P o) -> bstep N s l = BRun s' -> every s'.
Proof.
  intros H HL E. pose proof H as [H1 _]. destruct l as [t o|t|t]; cbn [bstep] in E.
  - destruct (t <? N); [|discriminate]. destruct (bs_pc s t) eqn:X; try discriminate. eapply every_move; [exact E|reflexivity|reflexivity|exact H| |].
    + cbn. intros o' Y. injection Y as <-. eapply HL. reflexivity.
    + intros u c v g [Y|[]]. discriminate.
  - specialize (H1 t). destruct (bs_pc s t) as [|o|o|o|k v g rest|c|o r] eqn:X; cbn [op_of] in H1.
    + discriminate.
    + destruct o; [destruct (bs_lock s); [discriminate|]|..]; (eapply every_move; [exact E|reflexivity|reflexivity|exact H|exact H1|easy]).
    + destruct o as [k n p|k v g|c]; [|destruct (bs_set s k)|destruct (bs_q s c)]; (eapply every_move; [exact E|reflexivity|reflexivity|exact H|exact H1|easy]).
    + destruct o as [k n p|k v g|c]; try discriminate. eapply every_move; [exact E|reflexivity|reflexivity|exact H|exact H1|]. intros u c v g [Y|[]]. discriminate.
    + destruct rest as [|c rest]; [eapply every_move; [exact E|reflexivity|reflexivity|exact H|exact H1|easy]|].
      destruct (bs_q s c); [|discriminate]. destruct (rb_push v g r) as [[b' []]|]; try discriminate;
      (eapply every_move; [exact E|reflexivity|reflexivity|exact H|exact H1|]; intros u c' v' g' [Y|[]]; injection Y as <- <- <- <-; apply (PR k); now apply H1).
    + destruct (bs_q s c); [|discriminate]. destruct (rb_pop r) as [[b' [[v|]|]]|]; try discriminate. eapply every_move; [exact E|reflexivity|reflexivity|exact H|exact H1|]. intros u c' v' g' [Y|[]]. discriminate.
    + eapply every_move; [exact E|now destruct o|now destruct o|exact H|discriminate|]. intros u c' v' g' [Y|[]]. discriminate.
  - specialize (H1 t). destruct (bs_pc s t) as [|o|o|o|k v g rest|c|o r] eqn:X; try discriminate. cbn [op_of] in H1. destruct (bs_q s c); [|discriminate]. destruct (rb_pop r) as [[b' [x|]]|]; try discriminate.
    eapply every_move; [exact E|reflexivity|reflexivity|exact H|exact H1|easy].
Qed.
Lemma every_run ls : forall s s', every s -> (forall o, calls ls o -> P o) -> brun N s ls = BRun s' -> every s'.
Proof.
  induction ls as [|l ls IH]; intros s s' H C E; cbn in E; [injection E as <-; exact H|]. destruct (bstep N s l) as [s1| |] eqn:E1; try discriminate. eapply IH; [| |exact E].
  - eapply every_step; [exact H| |exact E1]. intros t o ->. apply C. exists t. now left.
  - intros o (t & X). apply C. exists t. now right.
Qed.
End N2.

(** * Where executions are undefined or stop *)
Section N3.
Variable N : nat.
Definition popq (s : bst) : Prop := forall t c, bs_pc s t = BPop c -> bs_q s c <> None.
Lemma popq_move s1 s t p es s' : move_to N s1 t p es = BRun s' -> bs_pc s1 = bs_pc s -> (forall c, bs_q s c <> None -> bs_q s1 c <> None) -> popq s -> (forall c, p = BPop c -> bs_q s1 c <> None) -> popq s'.
Proof.
  intros E E1 E2 H H3. apply moved in E. destruct E as [-> _]. intros u c. cbn [bs_pc bs_q]. rewrite E1. destruct (Nat.eq_dec u t) as [->|NE]; [rewrite upd_same; apply H3|rewrite upd_other by exact NE]. intro X. apply E2. eapply H. exact X.
Qed.
Lemma set_q_some s c b c' : bs_q s c' <> None -> bs_q (set_q s c b) c' <> None.
Proof. unfold set_q, upd. cbn. destruct (Nat.eqb c' c); [discriminate|auto]. Qed.
Lemma popq_step s l s' : popq s -> bstep N s l = BRun s' -> popq s'.
Proof.
  intros H E. destruct l as [t o|t|t]; cbn [bstep] in E.
  - destruct (t <? N); [|discriminate]. destruct (bs_pc s t); try discriminate. eapply (popq_move _ s); [exact E|reflexivity|auto|exact H|discriminate].
  - destruct (bs_pc s t) as [|o|o|o|k v g rest|c|o r] eqn:X.
    + discriminate.
    + destruct o; [destruct (bs_lock s); [discriminate|]|..]; (eapply (popq_move _ s); [exact E|reflexivity|auto|exact H|discriminate]).
    + destruct o as [k n p|k v g|c]; [|destruct (bs_set s k)|destruct (bs_q s c) eqn:Q]; (eapply (popq_move _ s); [exact E|reflexivity|auto|exact H|]; try discriminate).
      intros c' Y. injection Y as <-. rewrite Q. discriminate.
    + destruct o as [k n p|k v g|c]; try discriminate. eapply (popq_move _ s); [exact E|reflexivity| |exact H|discriminate]. intros c Y. cbn [bs_q]. unfold upd. destruct (Nat.eqb c (S (bs_next s))); [discriminate|exact Y].
    + destruct rest as [|c rest]; [eapply (popq_move _ s); [exact E|reflexivity|auto|exact H|discriminate]|].
      destruct (bs_q s c); [|discriminate]. destruct (rb_push v g r) as [[b' []]|]; try discriminate; (eapply (popq_move _ s); [exact E|reflexivity|intro; apply set_q_some|exact H|discriminate]).
    + destruct (bs_q s c); [|discriminate]. destruct (rb_pop r) as [[b' [[v|]|]]|]; try discriminate. eapply (popq_move _ s); [exact E|reflexivity|intro; apply set_q_some|exact H|discriminate].
    + eapply (popq_move _ s); [exact E|now destruct o|now destruct o|exact H|discriminate].
  - destruct (bs_pc s t) as [|o|o|o|k v g rest|c|o r] eqn:X; try discriminate. destruct (bs_q s c); [|discriminate]. destruct (rb_pop r) as [[b' [x|]]|]; try discriminate.
    eapply (popq_move _ s); [exact E|reflexivity|auto|exact H|discriminate].
Qed.
Definition good (s : bst) : Prop := binv N s /\ popq s.
Lemma good_run ls : forall s s', good s -> roomy ls -> brun N s ls = BRun s' -> good s'.
Proof.
  intros s s' [I H] R E. split; [eapply brun_inv; eassumption|]. clear I R. revert s s' H E. induction ls as [|l ls IH]; intros s s' H E; cbn in E; [injection E as <-; exact H|].
  destruct (bstep N s l) as [s1| |] eqn:E1; try discriminate. eapply IH; [|exact E]. eapply popq_step; eassumption.
Qed.
Lemma good_new : good bs_new.
Proof. split; [apply binv_new|]. intros t c. discriminate. Qed.
Lemma reached_good s : reached N s -> good s.
Proof. intros (ls & R & E). eapply good_run; [apply good_new|exact R|exact E]. Qed.
Lemma race_true s t p : race N s t p = true -> exists u, u <> t /\ (conflict s p (bs_pc s u) = true \/ conflict s (bs_pc s u) p = true).
Proof.
  unfold race. rewrite existsb_exists. intros (u & _ & H). exists u. apply andb_true_iff in H. destruct H as [H1 H2]. apply negb_true_iff, Nat.eqb_neq in H1. split; [exact H1|]. now apply orb_true_iff in H2.
Qed.
Lemma undef_move s1 t p es : move_to N s1 t p es = BUndef -> race N s1 t p = true.
Proof. unfold move_to. destruct (race N s1 t p); [reflexivity|discriminate]. Qed.
(** The next connection of a publication exists. *)
Lemma loop_q s t k v g c rest : good s -> bs_pc s t = BLoop k v g (c :: rest) -> exists b, bs_q s c = Some b.
Proof.
  intros [[D C] _] E. pose proof (c_cur _ _ _ _ C t) as CU. rewrite E in CU. destruct CU as (a & b & dn & ET & _ & _ & _ & H). assert (B : bound (a ++ b) k c) by (apply H; apply in_app_iff; right; now left).
  assert (B2 : bound (bs_tr s) k c). { destruct B as (t' & n' & B). exists t', n'. rewrite ET. apply in_app_iff in B. apply in_app_iff. destruct B; [now left|right; now right]. }
  apply (d_bnd _ _ _ _ D) in B2. pose proof (d_q _ _ _ _ D c) as X. destruct (inbox (rev (bs_tr s)) c) as [[n l]|]; [|now destruct B2]. destruct X as (_ & b0 & X & _). eauto.
Qed.
Lemma undef_race s l : good s -> bstep N s l = BUndef -> exists t u p, u <> t /\ op_of p = op_of (bs_pc s t) /\ (conflict s p (bs_pc s u) = true \/ conflict s (bs_pc s u) p = true).
Proof.
  intros G E.
  assert (NC : forall s1 t p es, bs_set s1 = bs_set s -> bs_pc s1 = bs_pc s -> move_to N s1 t p es = BUndef -> op_of p = op_of (bs_pc s t) -> exists t u p, u <> t /\ op_of p = op_of (bs_pc s t) /\ (conflict s p (bs_pc s u) = true \/ conflict s (bs_pc s u) p = true)).
  { intros s1 t p es E1 E2 U O. apply undef_move, race_true in U. destruct U as (u & NE & U). exists t, u, p. rewrite E2 in U. unfold conflict in *. rewrite E1 in U. auto. }
  assert (NO : forall s1 t p es, (forall q, conflict s1 p q = false) -> (forall q, conflict s1 q p = false) -> move_to N s1 t p es = BUndef -> False).
  { intros s1 t p es E1 E2 U. apply undef_move, race_true in U. destruct U as (u & NE & [U|U]); congruence. }
  assert (CO : forall s1 p, (match p with BIdle | BWant _ | BPop _ | BOut _ _ => True | _ => False end) -> (forall q, conflict s1 p q = false) /\ (forall q, conflict s1 q p = false)).
  { intros s1 p H. split; intro q; destruct p; try easy; destruct q as [|o1|o1|o1| | |]; try reflexivity; now destruct o1. }
  destruct l as [t o|t|t]; cbn [bstep] in E.
  - destruct (t <? N); [|discriminate]. destruct (bs_pc s t) eqn:X; try discriminate. exfalso. eapply NO; [| |exact E]; apply CO; exact Logic.I.
  - destruct (bs_pc s t) as [|o|o|o|k v g rest|c|o r] eqn:X.
    + discriminate.
    + destruct o; [destruct (bs_lock s); [discriminate|]|..]; (eapply NC; [| |exact E|]; [reflexivity|reflexivity|now rewrite X]).
    + destruct o as [k n p|k v g|c]; [|destruct (bs_set s k) eqn:S|destruct (bs_q s c) eqn:Q]; (eapply NC; [| |exact E|]; [auto|reflexivity|now rewrite X]).
    + destruct o as [k n p|k v g|c]; try discriminate. exfalso. eapply NO; [| |exact E]; apply CO; exact Logic.I.
    + destruct rest as [|c rest]; [eapply NC; [| |exact E|]; [reflexivity|reflexivity|now rewrite X]|].
      destruct (loop_q s t k v g c rest G X) as (b & Q). rewrite Q in E. destruct (push_data _ _ _ _ c b v g (proj1 (proj1 G)) Q) as (n & l & b' & _ & _ & PU & _). rewrite PU in E.
      assert (E' : move_to N (set_q s c b') t (BLoop k v g rest) [EPush t c v g] = BUndef) by (destruct (length l <? n - 1), g; try exact E; discriminate).
      eapply NC; [| |exact E'|]; [reflexivity|reflexivity|now rewrite X].
    + pose proof (proj2 G t c X) as Q. destruct (bs_q s c) as [b|] eqn:QE; [|contradiction]. destruct (pop_data _ _ _ _ c b (proj1 (proj1 G)) QE) as (n & l & _ & _ & PO). destruct l as [|x l].
      * rewrite PO in E. discriminate.
      * destruct PO as (b' & PO & _). rewrite PO in E. exfalso. eapply NO; [| |exact E]; apply CO; exact Logic.I.
    + exfalso. eapply NO; [| |exact E]; apply CO; exact Logic.I.
  - destruct (bs_pc s t) as [|o|o|o|k v g rest|c|o r] eqn:X; try discriminate. pose proof (proj2 G t c X) as Q. destruct (bs_q s c) as [b|] eqn:QE; [|contradiction].
    destruct (pop_data _ _ _ _ c b (proj1 (proj1 G)) QE) as (n & l & _ & _ & PO). destruct l as [|x l].
    + rewrite PO in E. exfalso. eapply NO; [| |exact E]; apply CO; exact Logic.I.
    + destruct PO as (b' & PO & _). rewrite PO in E. discriminate.
Qed.
Lemma tr_grow_move s1 t p es s' : move_to N s1 t p es = BRun s' -> bs_tr s' = bs_tr s1 ++ es.
Proof. intro E. apply moved in E. now destruct E as [-> _]. Qed.
Lemma tr_grow s l s' : bstep N s l = BRun s' -> exists es, bs_tr s' = bs_tr s ++ es.
Proof.
  intro E. destruct l as [t o|t|t]; cbn [bstep] in E.
  - destruct (t <? N); [|discriminate]. destruct (bs_pc s t); try discriminate. apply tr_grow_move in E. eauto.
  - destruct (bs_pc s t) as [|o|o|o|k v g rest|c|o r].
    + discriminate.
    + destruct o; [destruct (bs_lock s); [discriminate|]|..]; apply tr_grow_move in E; eauto.
    + destruct o as [k n p|k v g|c]; [|destruct (bs_set s k)|destruct (bs_q s c)]; apply tr_grow_move in E; eauto.
    + destruct o as [k n p|k v g|c]; try discriminate. apply tr_grow_move in E; eauto.
    + destruct rest as [|c rest]; [apply tr_grow_move in E; eauto|]. destruct (bs_q s c); [|discriminate]. destruct (rb_push v g r) as [[b' []]|]; try discriminate; apply tr_grow_move in E; eauto.
    + destruct (bs_q s c); [|discriminate]. destruct (rb_pop r) as [[b' [[v|]|]]|]; try discriminate. apply tr_grow_move in E; eauto.
    + apply tr_grow_move in E. destruct o; eauto.
  - destruct (bs_pc s t) as [|o|o|o|k v g rest|c|o r]; try discriminate. destruct (bs_q s c); [|discriminate]. destruct (rb_pop r) as [[b' [x|]]|]; try discriminate. apply tr_grow_move in E; eauto.
Qed.
Lemma apart_run (P : bop -> Prop) ls : (forall k n p, P (OBind k n p) -> (forall c, ~ P (OSub c)) /\ (forall v g, ~ P (OPub k v g))) -> (forall o, calls ls o -> P o) -> roomy ls ->
  forall s, good s -> every P (fun _ _ => True) s -> (forall k n p, P (OBind k n p) -> exists c, bound (bs_tr s) k c) -> brun N s ls <> BUndef.
Proof.
  intro HP. induction ls as [|l ls IH]; intros C R s G EV B; cbn; [discriminate|]. destruct (bstep N s l) as [s1| |] eqn:E1; [|intros _|discriminate].
  - apply IH.
    + intros o (t & X). apply C. exists t. now right.
    + intros o (t & X). apply R. exists t. now right.
    + apply (good_run [l] s); [exact G| |cbn; now rewrite E1]. intros o (t & [X|[]]). apply R. exists t. now left.
    + eapply every_step; [|exact EV| |exact E1]; [auto|]. intros t o ->. apply C. exists t. now left.
    + intros k n p X. destruct (B _ _ _ X) as (c & Y). exists c. destruct (tr_grow _ _ _ E1) as (es & ->). now apply bound_app.
  - apply undef_race in E1; [|exact G]. destruct E1 as (t & u & p & _ & O & CF).
    assert (PT : forall o, op_of p = Some o -> P o) by (intros o; rewrite O; apply (proj1 EV)). assert (PU : forall o, op_of (bs_pc s u) = Some o -> P o) by apply (proj1 EV).
    assert (NO : forall p q, (forall o, op_of p = Some o -> P o) -> (forall o, op_of q = Some o -> P o) -> conflict s p q = true -> False).
    { clear p t u O CF PT PU. intros p q H1 H2 CF. destruct p as [|o|o|o| | |]; try discriminate. destruct o as [k n ps|k v g|c]; try discriminate. specialize (H1 _ eq_refl). destruct (HP _ _ _ H1) as [NS NP]. destruct q as [|o|o|o|k' v g rest| |]; try discriminate.
      - cbn in CF. specialize (H2 _ eq_refl). destruct o as [k' n' p'|k' v' g'|c']; [discriminate| |now apply (NS c')].
        destruct (B _ _ _ H1) as (c & X). apply (d_set _ _ _ _ (proj1 (proj1 G))) in X. destruct (bs_set s k); [exact X|discriminate].
      - cbn in CF. apply Nat.eqb_eq in CF. subst k'. specialize (H2 _ eq_refl). now apply (NP v g). }
    destruct CF as [CF|CF]; [apply (NO _ _ PT PU CF)|apply (NO _ _ PU PT CF)].
Qed.
Lemma not_stuck_move s1 t p es : move_to N s1 t p es <> BStuck.
Proof. unfold move_to. destruct (race N s1 t p); discriminate. Qed.
Lemma live s t : good s -> bs_pc s t <> BIdle -> ~ waits s t -> exists u, bs_pc s u <> BIdle /\ bstep N s (LGo u) <> BStuck /\ (u = t \/ bs_lock s = Some u /\ exists k n p, bs_pc s t = BWant (OBind k n p)).
Proof.
  intros G NI NW. pose proof G as [[D C] PQ].
  assert (HOLD : forall u, holds (bs_pc s u) = true -> bs_pc s u <> BIdle /\ bstep N s (LGo u) <> BStuck).
  { intros u H. cbn [bstep]. destruct (bs_pc s u) as [|o|o|o|k v g rest|c|o r]; try discriminate; cbn in H; destruct o as [k n p|k v g|c]; try discriminate; (split; [discriminate|apply not_stuck_move]). }
  destruct (bs_pc s t) as [|o|o|o|k v g rest|c|o r] eqn:E.
  - now destruct NI.
  - destruct o as [k n p|k v g|c].
    + destruct (bs_lock s) as [u|] eqn:L.
      * exists u. destruct (HOLD u) as [H1 H2]; [now apply (c_lock _ _ _ _ C)|]. split; [exact H1|]. split; [exact H2|]. right. split; [reflexivity|eauto].
      * exists t. rewrite E. split; [discriminate|]. split; [|now left]. cbn [bstep]. rewrite E, L. apply not_stuck_move.
    + exists t. rewrite E. split; [discriminate|]. split; [|now left]. cbn [bstep]. rewrite E. apply not_stuck_move.
    + exists t. rewrite E. split; [discriminate|]. split; [|now left]. cbn [bstep]. rewrite E. apply not_stuck_move.
  - exists t. rewrite E. split; [discriminate|]. split; [|now left]. cbn [bstep]. rewrite E. destruct o as [k n p|k v g|c]; [|destruct (bs_set s k)|destruct (bs_q s c)]; apply not_stuck_move.
  - exists t. rewrite E. split; [discriminate|]. split; [|now left]. cbn [bstep]. rewrite E. pose proof (c_chg _ _ _ _ C t o E). destruct o; try discriminate. apply not_stuck_move.
  - exists t. rewrite E. split; [discriminate|]. split; [|now left]. cbn [bstep]. rewrite E. destruct rest as [|c rest]; [apply not_stuck_move|].
    destruct (loop_q s t k v g c rest G E) as (b & Q). rewrite Q. destruct (push_data _ _ _ _ c b v g D Q) as (n & l & b' & IB & _ & PU & _). rewrite PU.
    destruct (Nat.ltb_spec (length l) (n - 1)) as [LT|GE]; [apply not_stuck_move|]. destruct g; try apply not_stuck_move. exfalso. apply NW. left. exists k, v, c, rest, n, l. auto.
  - exists t. rewrite E. split; [discriminate|]. split; [|now left]. cbn [bstep]. rewrite E. pose proof (PQ t c E) as Q. destruct (bs_q s c) as [b|] eqn:QE; [|contradiction].
    destruct (pop_data _ _ _ _ c b D QE) as (n & l & IB & _ & PO). destruct l as [|x l]; [exfalso; apply NW; right; exists c, n; auto|]. destruct PO as (b' & PO & _). rewrite PO. apply not_stuck_move.
  - exists t. rewrite E. split; [discriminate|]. split; [|now left]. cbn [bstep]. rewrite E. apply not_stuck_move.
Qed.
(** * Schedules *)
Definition calm (s : bst) : Prop := forall u, match bs_pc s u with BChange _ => False | _ => True end.
Lemma calm_race s t p : calm s -> (match p with BChange _ => False | _ => True end) -> race N s t p = false.
Proof.
  intros H HP. destruct (race N s t p) eqn:R; [|reflexivity]. apply race_true in R. destruct R as (u & _ & [R|R]); [destruct p; easy|]. specialize (H u). destruct (bs_pc s u); easy.
Qed.
Lemma calm_move s t p es : calm s -> (match p with BChange _ => False | _ => True end) -> move_to N s t p es = BRun (mkBS (bs_set s) (bs_q s) (bs_next s) (bs_lock s) (upd (bs_pc s) t p) (bs_tr s ++ es)).
Proof. intros H HP. unfold move_to. now rewrite calm_race. Qed.
Lemma calm_upd s t p st q nx lk tr : calm s -> (match p with BChange _ => False | _ => True end) -> calm (mkBS st q nx lk (upd (bs_pc s) t p) tr).
Proof. intros H HP u. cbn. destruct (Nat.eq_dec u t) as [->|NE]; [now rewrite upd_same|rewrite upd_other by exact NE; apply H]. Qed.
Lemma brun_app a : forall s b, brun N s (a ++ b) = match brun N s a with BRun s' => brun N s' b | x => x end.
Proof. induction a as [|l a IH]; intros s b; cbn; [reflexivity|]. destruct (bstep N s l); [apply IH|reflexivity|reflexivity]. Qed.
(** The steps by which [t] makes a publication, and what they leave. *)
Record same (s s' : bst) (t : nat) (p : bpc) (es : list bev) : Prop := mk_same
  { sm_good : good s'; sm_calm : calm s'; sm_set : bs_set s' = bs_set s; sm_lock : bs_lock s' = bs_lock s; sm_pc : bs_pc s' t = p; sm_pc' : forall u, u <> t -> bs_pc s' u = bs_pc s u; sm_tr : bs_tr s' = bs_tr s ++ es }.
Lemma roomy_go t n : roomy (repeat (LGo t) n).
Proof. intros o (u & X). apply repeat_spec in X. discriminate. Qed.
Lemma enter s t k v g : good s -> calm s -> bs_pc s t = BIdle -> t < N -> bs_set s k <> [] -> exists s', brun N s [LCall t (OPub k v g); LGo t; LGo t] = BRun s' /\ same s s' t (BLoop k v g (bs_set s k)) [ECall t (OPub k v g)].
Proof.
  intros G CA P TN NE. assert (RM : roomy [LCall t (OPub k v g); LGo t; LGo t]) by (intros o (u & [X|[X|[X|[]]]]); try discriminate; injection X as <- <-; exact Logic.I).
  eexists. assert (E : brun N s [LCall t (OPub k v g); LGo t; LGo t] = BRun (mkBS (bs_set s) (bs_q s) (bs_next s) (bs_lock s) (upd (upd (upd (bs_pc s) t (BWant (OPub k v g))) t (BLook (OPub k v g))) t (BLoop k v g (bs_set s k))) (((bs_tr s ++ [ECall t (OPub k v g)]) ++ []) ++ []))).
  { cbn [brun bstep]. apply Nat.ltb_lt in TN. rewrite TN, P, calm_move by easy. cbn [bs_pc]. rewrite upd_same.
    rewrite calm_move by (try exact Logic.I; now apply calm_upd). cbn [bs_pc bs_set bs_tr bs_q bs_next bs_lock]. rewrite upd_same. destruct (bs_set s k) eqn:S; [now destruct NE|].
    rewrite calm_move; [reflexivity| |exact Logic.I]. intro u. cbn [bs_pc]. destruct (Nat.eq_dec u t) as [->|NU]; [now rewrite upd_same|rewrite !upd_other by exact NU; apply CA]. }
  split; [exact E|]. constructor.
  - eapply good_run; [exact G|exact RM|exact E].
  - intro u. cbn [bs_pc]. destruct (Nat.eq_dec u t) as [->|NU]; [now rewrite upd_same|rewrite !upd_other by exact NU; apply CA].
  - reflexivity.
  - reflexivity.
  - cbn. apply upd_same.
  - intros u NU. cbn. now rewrite !upd_other by exact NU.
  - cbn [bs_tr]. now rewrite !app_nil_r.
Qed.
Lemma loop1 s t k v g c rest : g <> SWait -> good s -> calm s -> bs_pc s t = BLoop k v g (c :: rest) -> exists s', bstep N s (LGo t) = BRun s' /\ same s s' t (BLoop k v g rest) [EPush t c v g].
Proof.
  intros GW G CA P. destruct (loop_q s t k v g c rest G P) as (b & Q). destruct (push_data _ _ _ _ c b v g (proj1 (proj1 G)) Q) as (n & l & b' & _ & _ & PU & _).
  assert (E : bstep N s (LGo t) = BRun (mkBS (bs_set s) (upd (bs_q s) c (Some b')) (bs_next s) (bs_lock s) (upd (bs_pc s) t (BLoop k v g rest)) (bs_tr s ++ [EPush t c v g]))).
  { cbn [bstep]. rewrite P, Q, PU. assert (M : move_to N (set_q s c b') t (BLoop k v g rest) [EPush t c v g] = BRun (mkBS (bs_set s) (upd (bs_q s) c (Some b')) (bs_next s) (bs_lock s) (upd (bs_pc s) t (BLoop k v g rest)) (bs_tr s ++ [EPush t c v g]))) by (rewrite calm_move; [reflexivity|exact CA|exact Logic.I]).
    destruct (length l <? n - 1), g; try exact M; now destruct GW. }
  eexists. split; [exact E|]. constructor; try reflexivity.
  - apply (good_run [LGo t] s); [exact G|apply (roomy_go t 1)|]. cbn [brun]. now rewrite E.
  - now apply calm_upd.
  - cbn. apply upd_same.
  - intros u NU. cbn. now rewrite upd_other by exact NU.
Qed.
Lemma finish rest : forall s t k v g, g <> SWait -> good s -> calm s -> bs_pc s t = BLoop k v g rest ->
  exists s', brun N s (repeat (LGo t) (length rest + 2)) = BRun s' /\ same s s' t BIdle (map (fun c => EPush t c v g) rest ++ [ERet t (OPub k v g) BOk]).
Proof.
  induction rest as [|c rest IH]; intros s t k v g GW G CA P.
  - eexists. assert (E : brun N s [LGo t; LGo t] = BRun (mkBS (bs_set s) (bs_q s) (bs_next s) (bs_lock s) (upd (upd (bs_pc s) t (BOut (OPub k v g) BOk)) t BIdle) ((bs_tr s ++ []) ++ [ERet t (OPub k v g) BOk]))).
    { cbn [brun bstep]. rewrite P, calm_move by easy. cbn [bs_pc]. rewrite upd_same. rewrite calm_move by (try exact Logic.I; now apply calm_upd). reflexivity. }
    split; [exact E|]. constructor; try reflexivity.
    + eapply good_run; [exact G|apply (roomy_go t 2)|exact E].
    + intro u. cbn [bs_pc]. destruct (Nat.eq_dec u t) as [->|NU]; [now rewrite upd_same|rewrite !upd_other by exact NU; apply CA].
    + cbn. apply upd_same.
    + intros u NU. cbn. now rewrite !upd_other by exact NU.
    + cbn [bs_tr]. now rewrite app_nil_r.
  - destruct (loop1 s t k v g c rest GW G CA P) as (s1 & E1 & S1). destruct (IH s1 t k v g GW (sm_good _ _ _ _ _ S1) (sm_calm _ _ _ _ _ S1) (sm_pc _ _ _ _ _ S1)) as (s2 & E2 & S2).
    exists s2. split; [cbn [length plus repeat brun]; now rewrite E1|]. destruct S1, S2. constructor; auto; try congruence.
    + intros u NU. rewrite sm_pc'1 by exact NU. now apply sm_pc'0.
    + rewrite sm_tr1, sm_tr0, <- app_assoc. reflexivity.
Qed.
End N3.
