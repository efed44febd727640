From Verif Require Import BindSpec PoolProofs.
Local Open Scope list_scope.

Lemma targets_near c k i : (k < c_def c)%nat -> In i (targets c k) -> near c (Prim k) i.
Proof.
  intros Hk H. unfold targets in H. apply in_map_iff in H as (d & E & Hd). apply in_seq in Hd. unfold steal_range in Hd.
  exists k, (S d). split; [reflexivity|]. split; [exact Hk|]. split; [rewrite <- E; f_equal; lia|]. right. lia.
Qed.
Lemma self_near c i : (i < c_def c)%nat -> near c (Prim i) i.
Proof. intros H. exists i, 0%nat. split; [reflexivity|]. split; [exact H|]. split; [rewrite Nat.add_0_r; now apply Nat.mod_small|now left]. Qed.
Lemma near_self c k i : no_stealing c -> near c (Prim k) i -> k = i.
Proof.
  intros N (k' & d & E & Hk & M & D). injection E as <-. destruct d as [|d].
  - rewrite Nat.add_0_r, Nat.mod_small in M by trivial. now symmetry in M.
  - exfalso. destruct D as [D|D]; [discriminate|]. destruct N as [N|N]; lia.
Qed.
Lemma no_targets c k : no_stealing c -> targets c k = [].
Proof.
  intros N. unfold targets. assert (E : steal_range c = 0%nat) by (unfold steal_range; destruct N as [N|N]; lia). now rewrite E.
Qed.

(** Everything is where it is allowed to be: [A w t] means that [w] may execute [t] *)
Record places (c : cfg) (A : thr -> nat -> Prop) (s : pool) : Prop :=
  { pl_wsq : forall i t k, In t (p_wsq s i) -> (k < c_def c)%nat -> k = i \/ In i (targets c k) -> A (Prim k) t;
    pl_q : forall t w, In t (p_q s) -> A w t;
    pl_prio : forall e j, In e (p_prio s) -> A (Sec j) (ptask e);
    pl_call : forall k t j, In k (p_call s) -> In t (k_held k) -> A (Sec j) t;
    pl_pt : forall i t, In t (p_held (p_pt s i)) -> A (Prim i) t;
    pl_st : forall j t, In t (s_held (p_st s j)) -> A (Sec j) t }.
Lemma places_spawn c A k : forall s, places c A s -> places c A (spawn k s).
Proof.
  induction k as [|k IH]; intros s I; [exact I|]. cbn [spawn]. apply IH. destruct I as [W Q P C T S]. constructor; pc; trivial.
  intros j t. destruct (Nat.eq_dec j (p_nsec s)) as [->|N]; [rewrite upd_same; contradiction|rewrite upd_other by trivial; apply S].
Qed.
Lemma places_wsq c A s i t : places c A s -> (forall k, (k < c_def c)%nat -> k = i \/ In i (targets c k) -> A (Prim k) t) ->
  places c A (set_wsq s i (p_wsq s i ++ [t])).
Proof.
  intros [W Q P C T S] H. constructor; pc; trivial. intros j x k. destruct (Nat.eq_dec j i) as [->|N]; [|rewrite upd_other by trivial; apply W].
  rewrite upd_same. intros Hx. apply in_app_or in Hx as [Hx|[<-|[]]]; [now apply W|apply H].
Qed.
Lemma places_q c A s t : places c A s -> (forall w, A w t) -> places c A (set_q s (p_q s ++ [t])).
Proof.
  intros [W Q P C T S] H. constructor; pc; trivial. intros x w Hx. apply in_app_or in Hx as [Hx|[<-|[]]]; [now apply Q|apply H].
Qed.
Lemma places_prio c A s a p t s' : places c A s -> (forall j, A (Sec j) t) -> push_prio s a p t = Next s' -> places c A s'.
Proof.
  intros [W Q P C T S] H E. unfold push_prio in E. destruct (memb a (map fst (p_prio s))); [discriminate|]. injection E as <-. constructor; pc; trivial.
  intros x j Hx. apply in_app_or in Hx as [Hx|[<-|[]]]; [now apply P|apply H].
Qed.
Lemma places_pt c A s i x : places c A s -> (forall t, In t (p_held x) -> A (Prim i) t) -> places c A (set_pt s i x).
Proof.
  intros [W Q P C T S] H. constructor; pc; trivial. intros j t. destruct (Nat.eq_dec j i) as [->|N]; [rewrite upd_same; apply H|rewrite upd_other by trivial; apply T].
Qed.
Lemma places_st c A s i x : places c A s -> (forall t, In t (s_held x) -> A (Sec i) t) -> places c A (set_st s i x).
Proof.
  intros [W Q P C T S] H. constructor; pc; trivial. intros j t. destruct (Nat.eq_dec j i) as [->|N]; [rewrite upd_same; apply H|rewrite upd_other by trivial; apply S].
Qed.
Lemma places_less c A s i b : places c A s -> (forall x, In x b -> In x (p_wsq s i)) -> places c A (set_wsq s i b).
Proof.
  intros [W Q P C T S] H. constructor; pc; trivial. intros j x k. destruct (Nat.eq_dec j i) as [->|N]; [rewrite upd_same|rewrite upd_other by trivial; apply W].
  intros Hx. now apply W, H.
Qed.
Lemma places_qless c A s b : places c A s -> (forall x, In x b -> In x (p_q s)) -> places c A (set_q s b).
Proof. intros [W Q P C T S] H. constructor; pc; trivial. intros x w Hx. now apply Q, H. Qed.

Lemma places_prim c A s i ok s' : pinv c s -> places c A s -> prim_step c s i ok = Next s' -> places c A s'.
Proof.
  intros I L E. unfold prim_step in E. destruct (p_pt s i) as [| |k|l|] eqn:Ep; try discriminate.
  all: assert (Hi : i < c_def c) by (destruct (Nat.lt_ge_cases i (c_def c)) as [H|H]; [easy|]; destruct (iv_prim _ _ I i H) as [H' _]; congruence).
  - injection E as <-. apply places_pt; trivial. now destruct (p_stop s i).
  - assert (NX : forall x, p_held x = [] -> places c A (set_pt s i x)) by (intros x Hx; apply places_pt; trivial; rewrite Hx; contradiction).
    destruct k as [|k].
    + destruct (if ok then p_lk s i else Some 0), (own_take c (p_wsq s i)) as [[|x a] b] eqn:Et; injection E as <-; try (now apply NX).
      apply own_take_app in Et. apply places_pt; [apply places_less; trivial; intros y Hy; rewrite Et; apply in_or_app; now right|].
      intros y Hy. apply (pl_wsq _ _ _ L i); [rewrite Et; apply in_or_app; now left|trivial|now left].
    + destruct (nth_error (targets c i) k) as [j|] eqn:En.
      * apply nth_error_In in En. destruct (if ok then p_lk s j else Some 0), (steal_take c (p_wsq s j)) as [[|x a] b] eqn:Et; injection E as <-; try (now apply NX).
        apply steal_take_app in Et. apply places_pt; [apply places_less; trivial; intros y Hy; rewrite Et; apply in_or_app; now left|].
        intros y Hy. apply (pl_wsq _ _ _ L j); [rewrite Et; apply in_or_app; right; now apply in_rev in Hy|trivial|now right].
      * destruct ok, (pool_take c (p_q s)) as [[|x a] b] eqn:Et; injection E as <-; try (now apply NX).
        apply pool_take_app in Et. apply places_pt; [apply places_qless; trivial; intros y Hy; rewrite Et; apply in_or_app; now right|].
        intros y Hy. apply (pl_q _ _ _ L). rewrite Et. apply in_or_app. now left.
  - destruct l as [|x r]; injection E as <-; [now apply places_pt|].
    assert (G : places c A (set_pt s i (PRun r))).
    { apply places_pt; trivial. intros t Ht. apply (pl_pt _ _ _ L). rewrite Ep. now right. }
    destruct G as [W Q P C T S]. constructor; pc; trivial.
Qed.
Lemma prio_take_in l a b : prio_take l = (a, b) -> (forall x, In x a -> exists e, In e l /\ ptask e = x) /\ (forall e, In e b -> In e l).
Proof.
  unfold prio_take. intros E. destruct (top l) as [e|] eqn:T; injection E as <- <-.
  - split; [intros x [<-|[]]; exists e; split; [now apply top_in|reflexivity]|]. intros x Hx. now apply filter_In in Hx.
  - split; [contradiction|trivial].
Qed.
Lemma places_sec c A s j ok s' : places c A s -> sec_step c s j ok = Next s' -> places c A s'.
Proof.
  intros L E. unfold sec_step in E. destruct (p_st s j) as [| | | |l|] eqn:Ep; try discriminate.
  all: assert (NX : forall x, s_held x = [] -> places c A (set_st s j x)) by (intros x Hx; apply places_st; trivial; rewrite Hx; contradiction).
  - injection E as <-. apply NX. now destruct (p_sstop s j).
  - destruct ok, (pool_take c (p_q s)) as [[|x a] b] eqn:Et; injection E as <-; try (now apply NX).
    apply pool_take_app in Et. apply places_st; [apply places_qless; trivial; intros y Hy; rewrite Et; apply in_or_app; now right|].
    intros y Hy. apply (pl_q _ _ _ L). rewrite Et. apply in_or_app. now left.
  - destruct ok, (prio_take (p_prio s)) as [[|x a] b] eqn:Et; injection E as <-; try (now apply NX).
    destruct (prio_take_in _ _ _ Et) as [Ha Hb]. apply places_st.
    + destruct L as [W Q P C T S]. constructor; pc; trivial. intros e i He. now apply P, Hb.
    + intros y Hy. destruct (Ha y Hy) as (e & He & <-). now apply (pl_prio _ _ _ L).
  - destruct ok, (p_q s) as [|x b] eqn:Eq; injection E as <-; try (now apply NX).
    apply places_st; [apply places_qless; trivial; intros y Hy; rewrite Eq; now right|]. intros y [<-|[]]. apply (pl_q _ _ _ L). rewrite Eq. now left.
  - destruct l as [|x r]; injection E as <-; [now apply NX|].
    assert (G : places c A (set_st s j (SRun r))).
    { apply places_st; trivial. intros t Ht. apply (pl_st _ _ _ L). rewrite Ep. now right. }
    destruct G as [W Q P C T S]. constructor; pc; trivial.
Qed.
Lemma dest_own c r i : dest c r = QOwn i -> i < c_def c /\ r = Z.of_nat i.
Proof.
  unfold dest. destruct (Z.leb_spec 0 r), (Z.ltb_spec r (Z.of_nat (c_def c))); cbn [andb]; try (destruct (Z.eqb r (-101)); discriminate).
  intros E. injection E as <-. lia.
Qed.
Lemma places_step c A s l s' : pinv c s -> places c A s -> (forall t w, In t (given1 l) -> may c w l -> A w t) ->
  pool_step c s l = Next s' -> places c A s'.
Proof.
  intros I L G E. destruct l as [|t idx busy a|p t tid en lk|u t prio a|u n|u|i ok|j ok|i|j|j|]; cbn [pool_step given1 may] in *.
  - injection E as <-. unfold pool_init. destruct (p_init s); trivial. apply places_spawn. destruct L as [W Q P C T S]. constructor; pc; trivial; try contradiction.
    intros i t. now destruct (i <? c_def c).
  - specialize (G t).
    assert (near_of : forall i w, near c w i -> (i < c_def c) -> A w t \/ idx <> Z.of_nat i -> A w t \/ idx <> Z.of_nat i) by trivial.
    destruct (dispatch c (p_cur s) idx busy) as [[r cur']|] eqn:D; [|discriminate].
    assert (DR : idx = (-1)%Z \/ r = idx).
    { unfold dispatch in D. destruct (Z.eqb_spec idx (-1)); [now left|]. right. now injection D as <- _. }
    assert (ANY : idx = (-1)%Z -> forall w, A w t).
    { intros -> w. apply G; [now left|]. split; [unfold is_thread; lia|lia]. }
    destruct (dest c r) as [i| |] eqn:Ed.
    + destruct (p_init s); [|discriminate]. destruct (p_lk s i); [discriminate|]. injection E as <-.
      apply dest_own in Ed as [Hi ->].
      assert (X : places c A (set_wsq s i (p_wsq s i ++ [t]))).
      { apply places_wsq; trivial. intros k Hk Hn. destruct DR as [DR|DR]; [now apply ANY|]. apply G; [now left|]. subst idx. rewrite Nat2Z.id. split; [|lia].
        intros _. destruct Hn as [->|Hn]; [now apply self_near|now apply targets_near]. }
      destruct X as [W Q P C T S]. constructor; pc; trivial.
    + injection E as <-.
      assert (X : places c A (set_q s (p_q s ++ [t]))).
      { apply places_q; trivial. intros w. destruct DR as [DR|DR]; [now apply ANY|]. subst r. apply G; [now left|]. unfold dest in Ed. unfold is_thread.
        destruct (Z.leb_spec 0 idx), (Z.ltb_spec idx (Z.of_nat (c_def c))); cbn [andb] in Ed; try discriminate; destruct (Z.eqb_spec idx (-101)); try discriminate; split; lia. }
      destruct X as [W Q P C T S]. constructor; pc; trivial.
    + apply (places_prio c A (set_cur s cur') a (-101) t s'); trivial.
      * destruct L as [W Q P C T S]. constructor; pc; trivial.
      * intros j. destruct DR as [DR|DR]; [now apply ANY|]. subst r. apply G; [now left|]. unfold dest in Ed. unfold is_thread.
        destruct (Z.leb_spec 0 idx), (Z.ltb_spec idx (Z.of_nat (c_def c))); cbn [andb] in Ed; try discriminate; destruct (Z.eqb_spec idx (-101)); try discriminate; (split; [lia|intros _; now exists j]).
  - destruct ((0 <=? tid)%Z && (tid <? Z.of_nat (c_def c))%Z) eqn:B.
    + assert (X : places c A (set_wsq s (Z.to_nat tid) (p_wsq s (Z.to_nat tid) ++ [t]))).
      { apply places_wsq; trivial. intros k Hk Hn. apply G; [now left|]. intros [H1 H2]. destruct Hn as [->|Hn]; [apply self_near; lia|now apply targets_near]. }
      destruct (p_init s); cbn [negb] in E; [|discriminate].
      destruct (en && lk).
      * destruct (p_lk s (Z.to_nat tid)) as [q|]; [destruct (Nat.eqb q p); discriminate|]. injection E as <-. destruct X as [W Q P C T S]. constructor; pc; trivial.
      * destruct (p_lk s (Z.to_nat tid)) as [q|]; [|discriminate]. destruct (Nat.eqb q p); [|discriminate]. injection E as <-.
        destruct en; trivial. destruct X as [W Q P C T S]. constructor; pc; trivial.
    + injection E as <-. apply places_q; trivial. intros w. apply G; [now left|]. unfold is_thread. intros H.
      destruct (Z.leb_spec 0 tid), (Z.ltb_spec tid (Z.of_nat (c_def c))); cbn in B; try discriminate; lia.
  - destruct (find_call u (p_call s)); [discriminate|]. injection E as <-. destruct L as [W Q P C T S]. constructor; pc; trivial.
    intros k x j [<-|Hk]; [|now apply C]. cbn [k_held k_task]. intros [<-|[]]. apply G; [now left|now exists j].
  - destruct (find_call u (p_call s)); [discriminate|]. injection E as <-. destruct L as [W Q P C T S]. constructor; pc; trivial.
    intros k x j [<-|Hk]; [contradiction|now apply C].
  - destruct (find_call u (p_call s)) as [k|] eqn:Ef; [|discriminate]. apply find_call_some in Ef as [Hk Hu].
    assert (X : places c A (set_call (spawn (Z.to_nat (k_num k)) s) (end_call u (p_call s)))).
    { pose proof (places_spawn c A (Z.to_nat (k_num k)) s L) as [W Q P C T S]. constructor; pc; trivial. intros k' x j Hk' Hx.
      apply (pl_call _ _ _ L k'); trivial. unfold end_call in Hk'. now apply filter_In in Hk'. }
    destruct (k_task k) as [[a [prio t]]|] eqn:Ek; [|injection E as <-; exact X].
    apply (places_prio c A _ a prio t s' X); trivial. intros j. apply (pl_call _ _ _ L k); trivial. unfold k_held. rewrite Ek. now left.
  - now apply (places_prim c A s i ok).
  - now apply (places_sec c A s j ok).
  - destruct (p_init s && Nat.ltb i (c_def c)); [|discriminate]. injection E as <-. destruct L as [W Q P C T S]. constructor; pc; trivial.
  - destruct (memb j (p_sec s)); [|discriminate]. injection E as <-. destruct L as [W Q P C T S]. constructor; pc; trivial.
  - destruct (p_st s j); try discriminate. destruct (memb j (p_sec s)); [|discriminate]. injection E as <-. destruct L as [W Q P C T S]. constructor; pc; trivial.
  - destruct (p_init s && _ && _); [|discriminate]. destruct (existsb _ _); [discriminate|]. injection E as <-. destruct L as [W Q P C T S]. constructor; pc; trivial; contradiction.
Qed.
Lemma places_new c A : places c A pool_new.
Proof. constructor; cbn; contradiction. Qed.
Lemma places_mono c (A B : thr -> nat -> Prop) s : (forall w t, A w t -> B w t) -> places c A s -> places c B s.
Proof. intros H [W Q P C T S]. constructor; eauto. Qed.
Lemma places_run c A : forall ls s s', pinv c s -> places c A s -> (forall l t w, In l ls -> In t (given1 l) -> may c w l -> A w t) ->
  pool_run c s ls = Some s' -> places c A s'.
Proof.
  induction ls as [|l r IH]; intros s s' I L G E; cbn [pool_run] in E; [now injection E as <-|].
  destruct (pool_step c s l) as [| |s1] eqn:E1; try discriminate. apply (IH s1 s'); trivial.
  - apply (pool_step_inv c s l s1 I E1).
  - apply (places_step c A s l s1 I L); trivial. intros t w. apply G. now left.
  - intros l' t w Hl. apply G. now right.
Qed.

(** A task given to thread [i] when nobody steals: it waits in the thread or its queue until it was executed or dropped *)
Definition line (s : pool) (i : nat) : list nat := p_held (p_pt s i) ++ p_wsq s i.
(** Steps change the line of a thread by adding in front (tasks of the pool), at the end (given to it), executing the first one *)
Inductive line_step (s s' : pool) (i : nat) (l : plabel) : Prop :=
| ls_front a : line s' i = a ++ line s i -> p_log s' = p_log s \/ (exists x, p_log s' = x :: p_log s /\ l <> LPrim i true /\ l <> LPrim i false) -> line_step s s' i l
| ls_back t : line s' i = line s i ++ [t] -> p_log s' = p_log s -> In t (given1 l) -> line_step s s' i l
| ls_run x : line s i = x :: line s' i -> p_log s' = x :: p_log s -> line_step s s' i l
| ls_end : line s' i = [] -> (forall x, In x (line s i) -> In x (p_drop s')) -> p_log s' = p_log s -> line_step s s' i l.
Lemma spawn_keeps k : forall s, p_pt (spawn k s) = p_pt s /\ p_wsq (spawn k s) = p_wsq s /\ p_log (spawn k s) = p_log s.
Proof. induction k as [|k IH]; intros s; [now split|]. cbn [spawn]. destruct (IH (mkPool (p_init s) (p_cur s) (p_wsq s) (p_lk s) (p_q s) (p_prio s) (p_pt s) (p_stop s)
                       (upd (p_st s) (p_nsec s) SLoop) (upd (p_sstop s) (p_nsec s) false) (S (p_nsec s)) (p_sec s ++ [p_nsec s]) (p_call s) (p_log s) (p_drop s))) as (A & B & C). now rewrite A, B, C. Qed.
Ltac same := apply (ls_front _ _ _ _ []); [unfold line; pc; reflexivity|left; reflexivity].
Lemma line_step_ok c s l s' i : no_stealing c -> pinv c s -> pool_step c s l = Next s' -> i < c_def c -> line_step s s' i l.
Proof.
  intros NS I E Hi. destruct l as [|t idx busy a|p t tid en lk|u t prio a|u n|u|j ok|j ok|j|j|j|]; cbn [pool_step given1] in *.
  - injection E as <-. unfold pool_init. destruct (p_init s) eqn:Ei; [same|].
    match goal with |- line_step _ (spawn ?k ?s0) _ _ => destruct (spawn_keeps k s0) as (A & B & C) end. apply (ls_front _ _ _ _ []).
    + unfold line. rewrite A, B. pc. destruct (iv_off _ _ I Ei i) as [-> ->]. cbn [p_held app]. now destruct (i <? c_def c).
    + left. rewrite C. reflexivity.
  - destruct (dispatch c (p_cur s) idx busy) as [[r cur']|]; [|discriminate]. destruct (dest c r) as [k| |].
    + destruct (p_init s); [|discriminate]. destruct (p_lk s k); [discriminate|]. injection E as <-.
      destruct (Nat.eq_dec i k) as [->|N].
      * apply (ls_back _ _ _ _ t); [unfold line; pc; rewrite upd_same; now rewrite app_assoc|reflexivity|now left].
      * apply (ls_front _ _ _ _ []); [unfold line; pc; now rewrite upd_other by trivial|now left].
    + injection E as <-. same.
    + unfold push_prio in E. destruct (memb a _); [discriminate|]. injection E as <-. same.
  - destruct ((0 <=? tid)%Z && (tid <? Z.of_nat (c_def c))%Z); [|injection E as <-; same].
    destruct (p_init s); cbn [negb] in E; [|discriminate]. destruct (en && lk).
    + destruct (p_lk s (Z.to_nat tid)) as [q|]; [destruct (Nat.eqb q p); discriminate|]. injection E as <-.
      destruct (Nat.eq_dec i (Z.to_nat tid)) as [->|N].
      * apply (ls_back _ _ _ _ t); [unfold line; pc; rewrite upd_same; now rewrite app_assoc|reflexivity|now left].
      * apply (ls_front _ _ _ _ []); [unfold line; pc; now rewrite upd_other by trivial|now left].
    + destruct (p_lk s (Z.to_nat tid)) as [q|]; [|discriminate]. destruct (Nat.eqb q p); [|discriminate]. injection E as <-.
      destruct (Nat.eq_dec i (Z.to_nat tid)) as [->|N].
      * apply (ls_back _ _ _ _ t); [|destruct en; reflexivity|now left]. destruct en; unfold line; pc; rewrite upd_same; now rewrite app_assoc.
      * apply (ls_front _ _ _ _ []); [destruct en; unfold line; pc; now rewrite upd_other by trivial|left; destruct en; reflexivity].
  - destruct (find_call u (p_call s)); [discriminate|]. injection E as <-. same.
  - destruct (find_call u (p_call s)); [discriminate|]. injection E as <-. same.
  - destruct (find_call u (p_call s)) as [k|]; [|discriminate]. destruct (spawn_keeps (Z.to_nat (k_num k)) s) as (A & B & C).
    assert (X : line_step s (set_call (spawn (Z.to_nat (k_num k)) s) (end_call u (p_call s))) i (LCreate u)).
    { apply (ls_front _ _ _ _ []); [unfold line; pc; now rewrite A, B|left; pc; exact C]. }
    destruct (k_task k) as [[a [prio t]]|]; [|now injection E as <-]. unfold push_prio in E. destruct (memb a _); [discriminate|]. injection E as <-.
    apply (ls_front _ _ _ _ []); [unfold line; pc; now rewrite A, B|left; pc; exact C].
  - (* a primary thread *)
    unfold prim_step in E. destruct (Nat.eq_dec i j) as [EQ|N].
    + subst j. destruct (p_pt s i) as [| |k|q|] eqn:Ep; try discriminate.
      * injection E as <-. apply (ls_front _ _ _ _ []); [unfold line; pc; rewrite upd_same, Ep; now destruct (p_stop s i)|now left].
      * destruct k as [|k].
        -- destruct (if ok then p_lk s i else Some 0), (own_take c (p_wsq s i)) as [[|x a] b] eqn:Et; injection E as <-;
             (apply (ls_front _ _ _ _ []); [unfold line; pc; rewrite upd_same, Ep|now left]); trivial.
           rewrite upd_same. apply own_take_app in Et. now rewrite Et.
        -- rewrite (no_targets c i NS) in E. replace (nth_error (@nil nat) k) with (@None nat) in E by now destruct k.
           destruct ok, (pool_take c (p_q s)) as [[|x a] b] eqn:Et; injection E as <-.
           2: { apply (ls_front _ _ _ _ (x :: a)); [unfold line; pc; rewrite upd_same, Ep; reflexivity|now left]. }
           all: apply (ls_front _ _ _ _ []); [unfold line; pc; rewrite upd_same, Ep; reflexivity|now left].
      * destruct q as [|x r]; injection E as <-.
        -- apply (ls_front _ _ _ _ []); [unfold line; pc; rewrite upd_same, Ep; reflexivity|now left].
        -- apply (ls_run _ _ _ _ x); [unfold line; pc; rewrite upd_same, Ep; reflexivity|reflexivity].
    + assert (NL : LPrim j ok <> LPrim i true /\ LPrim j ok <> LPrim i false) by (split; congruence).
      destruct (p_pt s j) as [| |k|q|] eqn:Ep; try discriminate.
      * injection E as <-. apply (ls_front _ _ _ _ []); [unfold line; pc; now rewrite upd_other by trivial|now left].
      * destruct k as [|k].
        -- destruct (if ok then p_lk s j else Some 0), (own_take c (p_wsq s j)) as [[|x a] b] eqn:Et; injection E as <-;
             (apply (ls_front _ _ _ _ []); [unfold line; pc; now rewrite !upd_other by trivial|now left]).
        -- rewrite (no_targets c j NS) in E. replace (nth_error (@nil nat) k) with (@None nat) in E by now destruct k.
           destruct ok, (pool_take c (p_q s)) as [[|x a] b] eqn:Et; injection E as <-;
             (apply (ls_front _ _ _ _ []); [unfold line; pc; now rewrite !upd_other by trivial|now left]).
      * destruct q as [|x r]; injection E as <-; (apply (ls_front _ _ _ _ []); [unfold line; pc; now rewrite !upd_other by trivial|]).
        -- now left.
        -- right. exists x. now split.
  - unfold sec_step in E. destruct (p_st s j) as [| | | |q|]; try discriminate.
    + injection E as <-. same.
    + destruct ok, (pool_take c (p_q s)) as [[|x a] b]; injection E as <-; same.
    + destruct ok, (prio_take (p_prio s)) as [[|x a] b]; injection E as <-; same.
    + destruct ok, (p_q s) as [|x b]; injection E as <-; same.
    + destruct q as [|x r]; injection E as <-; [same|]. apply (ls_front _ _ _ _ []); [reflexivity|]. right. exists x. now split.
  - destruct (p_init s && Nat.ltb j (c_def c)); [|discriminate]. injection E as <-. same.
  - destruct (memb j (p_sec s)); [|discriminate]. injection E as <-. same.
  - destruct (p_st s j); try discriminate. destruct (memb j (p_sec s)); [|discriminate]. injection E as <-. same.
  - destruct (p_init s && _ && _) eqn:Eg; [|discriminate]. destruct (existsb _ _); [discriminate|]. injection E as <-.
    apply Bool.andb_true_iff in Eg as [Eg _]. apply Bool.andb_true_iff in Eg as [_ Ep]. rewrite forallb_forall in Ep.
    specialize (Ep i ltac:(apply in_seq; lia)). apply ls_end; [reflexivity| |reflexivity].
    unfold line. destruct (p_pt s i); try discriminate. cbn [p_held app]. intros x Hx. pc. apply in_or_app. left. apply in_flat_map. exists i. split; [apply in_seq; lia|trivial].
Qed.
Lemma gives_line c s l s' i t : i < c_def c -> gives_to i t l -> pool_step c s l = Next s' -> line s' i = line s i ++ [t] /\ p_log s' = p_log s.
Proof.
  intros Hi G E. destruct l as [|t' idx busy a|p t' tid en lk|u t' prio a|u n|u|j ok|j ok|j|j|j|]; cbn [gives_to] in G; try contradiction; destruct G as [-> ->]; cbn [pool_step] in E.
  - unfold dispatch in E. destruct (Z.eqb_spec (Z.of_nat i) (-1)); [lia|]. unfold dest in E.
    destruct (Z.leb_spec 0 (Z.of_nat i)); [|lia]. destruct (Z.ltb_spec (Z.of_nat i) (Z.of_nat (c_def c))); [|lia]. cbn [andb] in E. rewrite Nat2Z.id in E.
    destruct (p_init s); [|discriminate]. destruct (p_lk s i); [discriminate|]. injection E as <-. unfold line. pc. rewrite upd_same, app_assoc. now split.
  - destruct (Z.leb_spec 0 (Z.of_nat i)); [|lia]. destruct (Z.ltb_spec (Z.of_nat i) (Z.of_nat (c_def c))); [|lia]. cbn [andb] in E. rewrite Nat2Z.id in E.
    destruct (p_init s); cbn [negb] in E; [|discriminate]. destruct (en && lk).
    + destruct (p_lk s i) as [q|]; [destruct (Nat.eqb q p); discriminate|]. injection E as <-. unfold line. pc. rewrite upd_same, app_assoc. now split.
    + destruct (p_lk s i) as [q|]; [|discriminate]. destruct (Nat.eqb q p); [|discriminate]. injection E as <-. destruct en; unfold line; pc; rewrite upd_same, app_assoc; now split.
Qed.
Lemma drop_app c s l s' : pool_step c s l = Next s' -> exists x, p_drop s' = x ++ p_drop s.
Proof.
  assert (SP : forall k s0, p_drop (spawn k s0) = p_drop s0) by (induction k as [|k IH]; intros s0; [reflexivity|cbn [spawn]; now rewrite IH]).
  assert (Z : forall s1, p_drop s1 = p_drop s -> exists x, p_drop s1 = x ++ p_drop s) by (intros s1 H; now exists []).
  intros E. destruct l as [|t idx busy a|p t tid en lk|u t prio a|u n|u|j ok|j ok|j|j|j|]; cbn [pool_step] in E.
  - injection E as <-. unfold pool_init. destruct (p_init s); [now apply Z|]. rewrite SP. pc. now exists (p_q s).
  - destruct (dispatch c (p_cur s) idx busy) as [[r cur']|]; [|discriminate]. destruct (dest c r) as [k| |].
    + destruct (p_init s); [|discriminate]. destruct (p_lk s k); [discriminate|]. (injection E as <-; now apply Z).
    + (injection E as <-; now apply Z).
    + unfold push_prio in E. destruct (memb a _); [discriminate|]. (injection E as <-; now apply Z).
  - destruct ((0 <=? tid)%Z && (tid <? Z.of_nat (c_def c))%Z); [|(injection E as <-; now apply Z)].
    destruct (p_init s); cbn [negb] in E; [|discriminate]. destruct (en && lk).
    + destruct (p_lk s (Z.to_nat tid)) as [q|]; [destruct (Nat.eqb q p); discriminate|]. (injection E as <-; now apply Z).
    + destruct (p_lk s (Z.to_nat tid)) as [q|]; [|discriminate]. destruct (Nat.eqb q p); [|discriminate]. injection E as <-. apply Z. now destruct en.
  - destruct (find_call u (p_call s)); [discriminate|]. (injection E as <-; now apply Z).
  - destruct (find_call u (p_call s)); [discriminate|]. (injection E as <-; now apply Z).
  - destruct (find_call u (p_call s)) as [k|]; [|discriminate]. destruct (k_task k) as [[a [prio t]]|].
    + unfold push_prio in E. destruct (memb a _); [discriminate|]. injection E as <-. apply Z. pc. now rewrite SP.
    + injection E as <-. apply Z. pc. now rewrite SP.
  - unfold prim_step in E. destruct (p_pt s j) as [| |k|q|]; try discriminate.
    + (injection E as <-; now apply Z).
    + destruct k as [|k].
      * destruct (if ok then p_lk s j else Some 0), (own_take c (p_wsq s j)) as [[|y a] b]; (injection E as <-; now apply Z).
      * destruct (nth_error (targets c j) k) as [i|].
        -- destruct (if ok then p_lk s i else Some 0), (steal_take c (p_wsq s i)) as [[|y a] b]; (injection E as <-; now apply Z).
        -- destruct ok, (pool_take c (p_q s)) as [[|y a] b]; (injection E as <-; now apply Z).
    + destruct q; (injection E as <-; now apply Z).
  - unfold sec_step in E. destruct (p_st s j) as [| | | |q|]; try discriminate.
    + (injection E as <-; now apply Z).
    + destruct ok, (pool_take c (p_q s)) as [[|y a] b]; (injection E as <-; now apply Z).
    + destruct ok, (prio_take (p_prio s)) as [[|y a] b]; (injection E as <-; now apply Z).
    + destruct ok, (p_q s) as [|y b]; (injection E as <-; now apply Z).
    + destruct q; (injection E as <-; now apply Z).
  - destruct (p_init s && Nat.ltb j (c_def c)); [|discriminate]. (injection E as <-; now apply Z).
  - destruct (memb j (p_sec s)); [|discriminate]. (injection E as <-; now apply Z).
  - destruct (p_st s j); try discriminate. destruct (memb j (p_sec s)); [|discriminate]. (injection E as <-; now apply Z).
  - destruct (p_init s && _ && _); [|discriminate]. destruct (existsb _ _); [discriminate|]. injection E as <-. pc. eexists. reflexivity.
Qed.
Lemma drop_mono c s l s' : pool_step c s l = Next s' -> forall x, In x (p_drop s) -> In x (p_drop s').
Proof. intros E x Hx. destruct (drop_app c s l s' E) as (y & ->). apply in_or_app. now right. Qed.
Lemma census_line c s i t : i < c_def c -> cnt t (p_log s) + cnt t (line s i) <= census c s t.
Proof.
  intros Hi. unfold census, line. rewrite cnt_app. assert (Hs : In i (seq 0 (c_def c))) by (apply in_seq; lia).
  pose proof (sumf_in (fun i => cnt t (p_held (p_pt s i))) _ i Hs). pose proof (sumf_in (fun i => cnt t (p_wsq s i)) _ i Hs). cbn beta in *. lia.
Qed.
Lemma cnt_in t (l : list nat) : In t l <-> 0 < cnt t l.
Proof. split; [intros H; now apply (count_occ_In Nat.eq_dec) in H|intros H; now apply (count_occ_In Nat.eq_dec)]. Qed.
Lemma cnt_notin t (l : list nat) : ~ In t l <-> cnt t l = 0.
Proof. apply (count_occ_not_In Nat.eq_dec). Qed.

(** [t1] was given to thread [i] before [t2] *)
Definition queued (c : cfg) (i t1 t2 : nat) (s : pool) : Prop :=
  In t1 (p_drop s)
  \/ (In t1 (p_log s) /\ (In t2 (p_log s) -> ran_before s t1 t2))
  \/ (exists x y, line s i = x ++ t1 :: y /\ (In t2 y \/ census c s t2 = 0)).
Lemma queued_log c i t1 t2 s s' : (p_log s' = p_log s \/ exists z, p_log s' = z :: p_log s) ->
  In t1 (p_log s) -> (In t2 (p_log s) -> ran_before s t1 t2) -> queued c i t1 t2 s'.
Proof.
  intros L H1 H2. right; left. destruct L as [L|(z & L)].
  - unfold ran_before. rewrite L. now split.
  - split; [rewrite L; now right|]. intros H. unfold ran_before. rewrite L in H |- *. destruct (in_dec Nat.eq_dec t2 (p_log s)) as [F|F].
    + destruct (H2 F) as (a & b & d & E). exists (z :: a), b, d. now rewrite E.
    + destruct H as [->|H]; [|contradiction]. apply in_split in H1 as (b & d & ->). now exists [], b, d.
Qed.
Lemma queued_step c i t1 t2 s l s' : no_stealing c -> pinv c s -> i < c_def c -> pool_step c s l = Next s' -> t1 <> t2 ->
  census c s' t2 <= 1 -> ~ In t2 (given1 l) \/ gives_to i t2 l -> queued c i t1 t2 s -> queued c i t1 t2 s'.
Proof.
  intros NS I Hi E D C1 G Q. destruct (pool_step_inv c s l s' I E) as [I' CE]. specialize (CE t2).
  pose proof (census_line c s i t2 Hi) as CL. pose proof (census_line c s' i t2 Hi) as CL'.
  destruct Q as [Q|[[Q1 Q2]|(x & y & Q1 & Q2)]].
  - left. now apply (drop_mono c s l s' E).
  - apply (queued_log c i t1 t2 s s'); trivial. destruct (line_step_ok c s l s' i NS I E Hi) as [a _ [L|(z & L & _)]|t _ L _|z _ L|_ _ L]; eauto.
  - destruct G as [G|G].
    + assert (CG : census c s' t2 = census c s t2) by (apply cnt_notin in G; lia).
      destruct (line_step_ok c s l s' i NS I E Hi) as [a La Lg|t La Lg Ht|z La Lg|Le Lx Lg].
      * right; right. exists (a ++ x), y. rewrite La, Q1, app_assoc. split; trivial. rewrite CG. exact Q2.
      * right; right. exists x, (y ++ [t]). rewrite La, Q1, <- app_assoc. split; [reflexivity|]. rewrite CG. destruct Q2; [left; apply in_or_app; now left|now right].
      * destruct x as [|x0 x].
        -- rewrite Q1 in La. cbn [app] in La. injection La as Ez Ey. subst z. right; left. rewrite Lg. split; [now left|]. intros [F|F]; [congruence|]. exfalso.
           apply cnt_in in F. destruct Q2 as [Q2|Q2]; [|lia]. apply cnt_in in Q2. rewrite Q1 in CL. cbn [app] in CL. rewrite cnt_cons in CL. lia.
        -- rewrite Q1 in La. injection La as Ez Ey. right; right. exists x, y. split; [now rewrite <- Ey|]. rewrite CG. exact Q2.
      * left. apply Lx. rewrite Q1. apply in_or_app. right. now left.
    + destruct (gives_line c s l s' i t2 Hi G E) as [La Lg]. right; right. exists x, (y ++ [t2]). rewrite La, Q1, <- app_assoc. split; [reflexivity|].
      left. apply in_or_app. right. now left.
Qed.
