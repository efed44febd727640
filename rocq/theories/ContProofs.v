(** Proofs about the containers. *)
From Verif Require Export ContSpec.
From Coq Require Import Lia.
Local Open Scope nat_scope.
Local Open Scope list_scope.

Lemma firstn_in {A} (x : A) c l : In x (firstn c l) -> In x l.
Proof. intros H. rewrite <- (firstn_skipn c l). apply in_or_app. now left. Qed.
Section LruProofs.
Context {V : Type}.
Implicit Types (s : lru V) (n : lnode V).

Lemma in_drop x k l : In x (drop_key k l) <-> In x l /\ x <> k.
Proof. unfold drop_key. rewrite filter_In. destruct (Nat.eqb_spec x k); cbn; intuition congruence. Qed.
Lemma nodup_drop k l : NoDup l -> NoDup (drop_key k l).
Proof. apply NoDup_filter. Qed.
Lemma drop_none k l : ~ In k l -> drop_key k l = l.
Proof.
  induction l as [|a r IH]; cbn; intros H; [easy|].
  destruct (Nat.eqb_spec a k) as [->|]; cbn; [exfalso; tauto|]. fold (drop_key k r). rewrite IH; tauto.
Qed.
Lemma length_drop k l : NoDup l -> In k l -> S (length (drop_key k l)) = length l.
Proof.
  induction l as [|a r IH]; intros Hn Hi; [easy|]. inversion Hn; subst. cbn.
  destruct (Nat.eqb_spec a k) as [->|Hne]; cbn; fold (drop_key k r).
  - now rewrite drop_none.
  - destruct Hi as [->|Hi]; [congruence|]. now rewrite IH.
Qed.
Lemma used_nodup c (h : list (lop V)) : NoDup (used c h).
Proof.
  induction h as [|[k v|k|] r IH]; cbn; try constructor.
  - rewrite in_drop. tauto.
  - now apply nodup_drop.
  - destruct (memb k _); [|easy]. constructor; [rewrite in_drop; tauto|now apply nodup_drop].
Qed.
(** Moving a key to the front, when it is among the first [c]. *)
Lemma firstn_move_in : forall c k l, NoDup l -> In k (firstn c l) -> firstn c (k :: drop_key k l) = k :: drop_key k (firstn c l).
Proof.
  intros [|c] k l Hn Hi; [easy|]. cbn [firstn]. f_equal. revert c Hi.
  induction l as [|a r IH]; intros c Hi; [easy|]. inversion Hn; subst. cbn [firstn] in Hi |- *. cbn [drop_key filter].
  destruct (Nat.eqb_spec a k) as [->|Hne]; cbn [negb].
  - fold (drop_key k r). fold (drop_key k (firstn c r)).
    rewrite drop_none by easy. rewrite drop_none; [easy|]. intros H. apply firstn_in in H. contradiction.
  - fold (drop_key k r). fold (drop_key k (firstn c r)). destruct c as [|c]; cbn in Hi.
    + destruct Hi as [Hi|Hi]; [congruence|easy].
    + cbn [firstn]. f_equal. destruct Hi as [Hi|Hi]; [congruence|]. apply (IH H2 c Hi).
Qed.
Lemma firstn_move_out : forall c k l, ~ In k (firstn c l) -> firstn c (k :: drop_key k l) = firstn c (k :: firstn c l).
Proof.
  intros [|c] k l Hi; [easy|]. cbn [firstn]. f_equal. revert l Hi.
  induction c as [|c IH]; intros l Hi; [easy|]. destruct l as [|a r]; [easy|].
  cbn [firstn] in Hi |- *. cbn [drop_key filter]. destruct (Nat.eqb_spec a k) as [->|Hne]; [exfalso; apply Hi; now left|].
  cbn [negb firstn]. fold (drop_key k r). f_equal. apply IH. intros H. apply Hi. now right.
Qed.

Definition keys (l : list (lnode V)) : list nat := map (@ln_key V) l.
Local Arguments keys : simpl never.
Local Arguments drop_key : simpl never.
Record lru_inv (c : nat) (h : list (lop V)) s : Prop := mk_li
  { li_cap : l_cap s = c;
    li_size : l_size s = length (l_nodes s);
    li_keys : keys (l_nodes s) = firstn c (used c h);
    li_ids : NoDup (map (@ln_id V) (l_nodes s));
    li_next : forall n, In n (l_nodes s) -> ln_id n < l_next s;
    li_cache : forall k i, l_cache s k = Some i <-> exists n, In n (l_nodes s) /\ ln_key n = k /\ ln_id n = i;
    li_val : forall n, In n (l_nodes s) -> last_put h (ln_key n) = Some (ln_val n) }.

Lemma id_inj l n m : NoDup (map (@ln_id V) l) -> In n l -> In m l -> ln_id n = ln_id m -> n = m.
Proof.
  induction l as [|a r IH]; [easy|]. cbn. intros H Hn Hm E. inversion H; subst.
  destruct Hn as [->|Hn], Hm as [->|Hm]; [easy| | |auto].
  - exfalso. apply H2. rewrite E. now apply in_map.
  - exfalso. apply H2. rewrite <- E. now apply in_map.
Qed.
Lemma key_inj l n m : NoDup (keys l) -> In n l -> In m l -> ln_key n = ln_key m -> n = m.
Proof.
  unfold keys. induction l as [|a r IH]; [easy|]. cbn. intros H Hn Hm E. inversion H; subst.
  destruct Hn as [->|Hn], Hm as [->|Hm]; [easy| | |auto].
  - exfalso. apply H2. rewrite E. now apply in_map.
  - exfalso. apply H2. rewrite <- E. now apply in_map.
Qed.
Lemma in_erase i l n : In n (erase_node i l) <-> In n l /\ ln_id n <> i.
Proof. unfold erase_node. rewrite filter_In. destruct (Nat.eqb_spec (ln_id n) i); cbn; intuition congruence. Qed.
Lemma NoDup_map_filter {A B} (f : A -> B) g (l : list A) : NoDup (map f l) -> NoDup (map f (filter g l)).
Proof.
  induction l as [|a r IH]; cbn; intros H; [easy|]. inversion H; subst. destruct (g a); [|auto]. cbn. constructor; [|auto].
  intros Hi. apply H2. apply in_map_iff in Hi. destruct Hi as [x [E Hx]]. apply filter_In in Hx. rewrite <- E. apply in_map. tauto.
Qed.
Lemma erase_keys l n : NoDup (map (@ln_id V) l) -> NoDup (keys l) -> In n l -> keys (erase_node (ln_id n) l) = drop_key (ln_key n) (keys l).
Proof.
  intros Hid Hk Hn. unfold keys, erase_node, drop_key.
  assert (H : forall m, In m l -> negb (Nat.eqb (ln_id m) (ln_id n)) = negb (Nat.eqb (ln_key m) (ln_key n))).
  { intros m Hm. destruct (Nat.eqb_spec (ln_id m) (ln_id n)) as [E|E], (Nat.eqb_spec (ln_key m) (ln_key n)) as [E'|E']; try easy; exfalso.
    - rewrite (id_inj l m n Hid Hm Hn E) in E'. congruence.
    - rewrite (key_inj l m n Hk Hm Hn E') in E. congruence. }
  clear - H. induction l as [|a r IH]; [easy|]. cbn [map filter]. rewrite <- (H a) by now left.
  destruct (negb _); cbn [map]; rewrite IH; auto; intros m Hm; apply H; now right.
Qed.

Lemma lru_inv_new c : lru_inv c [] (lru_new c).
Proof.
  constructor; cbn; try easy; try constructor.
  - now rewrite firstn_nil.
  - discriminate.
  - intros [n [[] _]].
Qed.
Lemma lru_inv_clear c h s : lru_inv c h s -> lru_inv c (LClear :: h) (lru_clear s).
Proof.
  intros H. constructor; cbn; try easy; try constructor; try apply (li_cap _ _ _ H).
  - now rewrite firstn_nil.
  - discriminate.
  - intros [n [[] _]].
Qed.
(** The two ways put makes room, and the insertion. *)
Lemma lru_push_inv c h h' s k v :
  l_cap s = c -> l_size s = length (l_nodes s) -> NoDup (map (@ln_id V) (l_nodes s)) ->
  (forall n, In n (l_nodes s) -> ln_id n < l_next s) ->
  (forall k i, l_cache s k = Some i <-> exists n, In n (l_nodes s) /\ ln_key n = k /\ ln_id n = i) ->
  (forall n, In n (l_nodes s) -> last_put h (ln_key n) = Some (ln_val n)) ->
  ~ In k (keys (l_nodes s)) ->
  k :: keys (l_nodes s) = firstn c (used c h') ->
  (forall x, last_put h' x = if Nat.eqb x k then Some v else last_put h x) ->
  lru_inv c h' (mkL (l_cap s) (S (l_size s)) (mkN (l_next s) k v :: l_nodes s) (map_set (l_cache s) k (Some (l_next s))) (S (l_next s))).
Proof.
  intros Hc Hs Hi Hn Hca Hv Hk Hf Hl. constructor; cbn.
  - easy.
  - now rewrite Hs.
  - exact Hf.
  - constructor; [|easy]. intros H. apply in_map_iff in H. destruct H as [m [E Hm]]. specialize (Hn m Hm). lia.
  - intros n [<-|H]; cbn; [lia|]. specialize (Hn n H). lia.
  - intros k' i. unfold map_set. destruct (Nat.eqb_spec k' k) as [->|Hne]; split.
    + intros E. injection E as <-. eexists. split; [now left|easy].
    + intros [n [[<-|H] [E1 E2]]]; cbn in *; [now subst|]. exfalso. apply Hk. rewrite <- E1. now apply in_map.
    + intros E. apply Hca in E. destruct E as [n [H1 H2]]. exists n. split; [now right|easy].
    + intros [n [[<-|H] [E1 E2]]]; cbn in *; [congruence|]. apply Hca. exists n. easy.
  - intros n [<-|H]; cbn; rewrite Hl.
    + now rewrite Nat.eqb_refl.
    + destruct (Nat.eqb_spec (ln_key n) k) as [E|E]; [|now apply Hv]. exfalso. apply Hk. rewrite <- E. now apply in_map.
Qed.
Lemma keys_nodup c h s : lru_inv c h s -> NoDup (keys (l_nodes s)).
Proof.
  intros H. rewrite (li_keys _ _ _ H). pose proof (used_nodup c h) as Hn. rewrite <- (firstn_skipn c) in Hn.
  now apply NoDup_app_iff in Hn.
Qed.
Lemma rev_cons_app {A} (l : list A) b r : rev l = b :: r -> l = rev r ++ [b].
Proof. intros E. rewrite <- (rev_involutive l), E. easy. Qed.

Lemma lru_put_inv c h h' s k v :
  0 < c -> lru_inv c h s -> used c h' = k :: drop_key k (used c h) ->
  (forall x, last_put h' x = if Nat.eqb x k then Some v else last_put h x) ->
  exists s', lru_put k v s = Some s' /\ lru_inv c h' s'.
Proof.
  intros Hc H Hu Hl. pose proof (keys_nodup _ _ _ H) as Hkn. destruct (l_cache s k) as [i|] eqn:E; unfold lru_put; rewrite E.
  - (* already present: move to the front *)
    assert (E' := E). apply (li_cache _ _ _ H) in E'. destruct E' as [n [Hn [Hk Hi]]]. subst k i.
    eexists. split; [reflexivity|].
    refine (lru_push_inv c h h' (mkL (l_cap s) (l_size s - 1) (erase_node (ln_id n) (l_nodes s)) (map_set (l_cache s) (ln_key n) None) (l_next s)) (ln_key n) v _ _ _ _ _ _ _ _ Hl); cbn.
    + apply (li_cap _ _ _ H).
    + rewrite (li_size _ _ _ H).
      assert (length (keys (erase_node (ln_id n) (l_nodes s))) = length (l_nodes s) - 1) as HL.
      { rewrite (erase_keys _ n (li_ids _ _ _ H) Hkn Hn).
        assert (In (ln_key n) (keys (l_nodes s))) as Hin by now apply in_map.
        pose proof (length_drop (ln_key n) _ Hkn Hin). unfold keys in *. rewrite map_length in H0. lia. }
      unfold keys in HL. now rewrite map_length in HL.
    + apply NoDup_map_filter. apply (li_ids _ _ _ H).
    + intros m Hm. apply in_erase in Hm. now apply (li_next _ _ _ H).
    + intros k' i'. unfold map_set. destruct (Nat.eqb_spec k' (ln_key n)) as [->|Hne]; split.
      * discriminate.
      * intros [m [Hm [E1 E2]]]. apply in_erase in Hm. destruct Hm as [Hm Hne]. exfalso. apply Hne.
        now rewrite (key_inj _ m n Hkn Hm Hn E1).
      * intros E'. apply (li_cache _ _ _ H) in E'. destruct E' as [m [Hm [E1 E2]]]. exists m. split; [|easy].
        apply in_erase. split; [easy|]. intros E3. rewrite (id_inj _ m n (li_ids _ _ _ H) Hm Hn E3) in E1. congruence.
      * intros [m [Hm [E1 E2]]]. apply in_erase in Hm. apply (li_cache _ _ _ H). exists m. easy.
    + intros m Hm. apply in_erase in Hm. now apply (li_val _ _ _ H).
    + rewrite (erase_keys _ n (li_ids _ _ _ H) Hkn Hn). rewrite in_drop. tauto.
    + rewrite Hu, (erase_keys _ n (li_ids _ _ _ H) Hkn Hn), (li_keys _ _ _ H). symmetry. apply firstn_move_in; [apply used_nodup|].
      rewrite <- (li_keys _ _ _ H). now apply in_map.
  - assert (Hni : ~ In k (keys (l_nodes s))).
    { intros Hi. apply in_map_iff in Hi. destruct Hi as [n [E1 Hn]].
      assert (l_cache s k = Some (ln_id n)) by (apply (li_cache _ _ _ H); exists n; easy). congruence. }
    destruct (Nat.leb_spec (l_cap s) (l_size s)) as [Hle|Hlt].
    + (* full: drop the last *)
      assert (HL : length (l_nodes s) <= c).
      { pose proof (f_equal (@length _) (li_keys _ _ _ H)) as HL. unfold keys in HL. rewrite map_length in HL. rewrite HL. apply firstn_le_length. }
      destruct (rev (l_nodes s)) as [|b r] eqn:Er.
      { exfalso. apply (f_equal (@length _)) in Er. rewrite rev_length in Er. cbn in Er. rewrite (li_cap _ _ _ H), (li_size _ _ _ H) in Hle. lia. }
      apply rev_cons_app in Er. eexists. split; [reflexivity|].
      assert (Hsub : forall n, In n (rev r) -> In n (l_nodes s)) by (intros n Hn; rewrite Er; apply in_or_app; now left).
      assert (Hb : In b (l_nodes s)) by (rewrite Er; apply in_or_app; right; now left).
      assert (Hnb : forall n, In n (rev r) -> ln_id n <> ln_id b).
      { intros n Hn E1. pose proof (li_ids _ _ _ H) as Hid. rewrite Er, map_app in Hid. apply NoDup_app_iff in Hid.
        destruct Hid as [_ [_ Hd]]. apply (Hd (ln_id n)); [now apply in_map|]. rewrite E1. now left. }
      refine (lru_push_inv c h h' (mkL (l_cap s) (l_size s - 1) (rev r) (map_set (l_cache s) (ln_key b) None) (l_next s)) k v _ _ _ _ _ _ _ _ Hl); cbn.
      * apply (li_cap _ _ _ H).
      * rewrite (li_size _ _ _ H), Er, app_length. cbn. lia.
      * pose proof (li_ids _ _ _ H) as Hid. rewrite Er, map_app in Hid. now apply NoDup_app_iff in Hid.
      * intros n Hn. apply (li_next _ _ _ H). auto.
      * intros k' i'. unfold map_set. destruct (Nat.eqb_spec k' (ln_key b)) as [->|Hne]; split.
        -- discriminate.
        -- intros [m [Hm [E1 E2]]]. exfalso. apply (Hnb m Hm). now rewrite (key_inj _ m b Hkn (Hsub m Hm) Hb E1).
        -- intros E'. apply (li_cache _ _ _ H) in E'. destruct E' as [m [Hm [E1 E2]]]. exists m. split; [|easy].
           rewrite Er in Hm. apply in_app_or in Hm. destruct Hm as [Hm|[->|[]]]; [easy|congruence].
        -- intros [m [Hm [E1 E2]]]. apply (li_cache _ _ _ H). exists m. split; [auto|easy].
      * intros n Hn. apply (li_val _ _ _ H). auto.
      * intros Hi. apply Hni. apply in_map_iff in Hi. destruct Hi as [n [E1 Hn]]. rewrite <- E1. apply in_map. auto.
      * rewrite Hu, firstn_move_out by (rewrite <- (li_keys _ _ _ H); exact Hni).
        rewrite <- (li_keys _ _ _ H), Er. unfold keys. rewrite map_app.
        assert (length (map (@ln_key V) (rev r)) = c - 1) as HLr.
        { rewrite map_length. rewrite Er, app_length in HL. cbn in HL. rewrite (li_cap _ _ _ H), (li_size _ _ _ H), Er, app_length in Hle. cbn in Hle. lia. }
        destruct c as [|c']; [lia|]. cbn [firstn]. f_equal. rewrite firstn_app, HLr. replace (c' - (S c' - 1)) with 0 by lia.
        cbn [firstn]. rewrite app_nil_r. rewrite firstn_all2 by lia. easy.
    + eexists. split; [reflexivity|]. apply (lru_push_inv c h h' s k v); try apply H; try easy.
      rewrite Hu, firstn_move_out by (rewrite <- (li_keys _ _ _ H); exact Hni).
      rewrite <- (li_keys _ _ _ H). rewrite firstn_all2; [easy|]. cbn. unfold keys. rewrite map_length.
      rewrite (li_cap _ _ _ H), (li_size _ _ _ H) in Hlt. lia.
Qed.

Definition lru_answer (c : nat) (h : list (lop V)) (o : lop V) : option V :=
  match o with LGet k => if memb k (firstn c (used c h)) then last_put h k else None | _ => None end.
Lemma lru_step_inv c h s o : 0 < c -> lru_inv c h s ->
  exists s', lru_step s o = Some (s', lru_answer c h o) /\ lru_inv c (o :: h) s'.
Proof.
  intros Hc H. destruct o as [k v|k|]; cbn [lru_step lru_answer].
  - destruct (lru_put_inv c h (LPut k v :: h) s k v Hc H eq_refl ltac:(easy)) as [s' [E1 E2]]. exists s'. now rewrite E1.
  - unfold lru_get. destruct (l_cache s k) as [i|] eqn:E.
    + apply (li_cache _ _ _ H) in E. destruct E as [n [Hn [Hk Hi]]]. subst k i.
      assert (Hm : memb (ln_key n) (firstn c (used c h)) = true).
      { apply memb_in. rewrite <- (li_keys _ _ _ H). now apply in_map. }
      destruct (find (fun m => Nat.eqb (ln_id m) (ln_id n)) (l_nodes s)) as [m|] eqn:Ef.
      2:{ exfalso. pose proof (find_none _ _ Ef n Hn) as Hx. cbn in Hx. rewrite Nat.eqb_refl in Hx. discriminate. }
      apply find_some in Ef. destruct Ef as [Hmi Em]. apply Nat.eqb_eq in Em.
      rewrite (id_inj _ m n (li_ids _ _ _ H) Hmi Hn Em).
      destruct (lru_put_inv c h (LGet (ln_key n) :: h) s (ln_key n) (ln_val n) Hc H) as [s' [E1 E2]].
      * cbn [used]. now rewrite Hm.
      * intros x. cbn [last_put]. destruct (Nat.eqb_spec x (ln_key n)) as [->|]; [|easy]. now apply (li_val _ _ _ H).
      * exists s'. rewrite E1, Hm, (li_val _ _ _ H n Hn). easy.
    + assert (Hm : memb k (firstn c (used c h)) = false).
      { apply memb_false. rewrite <- (li_keys _ _ _ H). intros Hi. apply in_map_iff in Hi. destruct Hi as [n [E1 Hn]].
        assert (l_cache s k = Some (ln_id n)) by (apply (li_cache _ _ _ H); exists n; easy). congruence. }
      exists s. rewrite Hm. split; [easy|]. destruct H. constructor; cbn [used last_put]; try easy. now rewrite Hm.
  - exists (lru_clear s). split; [easy|]. now apply lru_inv_clear.
Qed.
(** The answers along a history, [h0] being the operations before it, newest first. *)
Fixpoint lru_answers (c : nat) (h0 : list (lop V)) (h : list (lop V)) : list (option V) :=
  match h with [] => [] | o :: r => lru_answer c h0 o :: lru_answers c (o :: h0) r end.
Lemma lru_run_inv c : 0 < c -> forall h h0 s, lru_inv c h0 s ->
  exists s', lru_run s h = Some (s', lru_answers c h0 h) /\ lru_inv c (rev h ++ h0) s'.
Proof.
  intros Hc. induction h as [|o r IH]; intros h0 s H; cbn [lru_run lru_answers].
  - exists s. easy.
  - destruct (lru_step_inv c h0 s o Hc H) as [s1 [E1 H1]]. rewrite E1. destruct (IH (o :: h0) s1 H1) as [s2 [E2 H2]]. rewrite E2.
    exists s2. split; [easy|]. cbn [rev]. rewrite <- app_assoc. exact H2.
Qed.
Lemma lru_answers_nth c : forall h1 h0 o h2, nth_error (lru_answers c h0 (h1 ++ o :: h2)) (length h1) = Some (lru_answer c (rev h1 ++ h0) o).
Proof.
  induction h1 as [|a r IH]; intros h0 o h2; cbn; [easy|]. rewrite IH. rewrite <- app_assoc. easy.
Qed.
End LruProofs.

(** * Small vector *)
Definition sv_rep (l : list nat) (s : svec) : Prop := sv_cur s = length l /\ exists rest, sv_data s = map Some l ++ rest.

Lemma sv_read_at p x q : sv_read (length p) (map Some p ++ Some x :: q) = Some x.
Proof. unfold sv_read. rewrite nth_error_app2; rewrite map_length; [|lia]. now rewrite Nat.sub_diag. Qed.
Lemma sv_write_at x : forall p c q, sv_write (length p) x (map Some p ++ c :: q) = Some (map Some p ++ Some x :: q).
Proof. induction p as [|a r IH]; intros c q; cbn; [easy|]. now rewrite IH. Qed.
Lemma map_some_snoc p x (q : list (option nat)) : map Some (p ++ [x]) ++ q = map Some p ++ Some x :: q.
Proof. rewrite map_app, <- app_assoc. easy. Qed.

Lemma has_loop_spec x rest : forall l p, has_loop x (length p) (length l) (map Some (p ++ l) ++ rest) = Some (memb x l).
Proof.
  induction l as [|y r IH]; intros p; cbn [length has_loop memb existsb]; [easy|].
  rewrite map_app, <- app_assoc. cbn [map app]. rewrite sv_read_at. destruct (Nat.eqb x y) eqn:E; cbn [orb]; [easy|].
  specialize (IH (p ++ [y])). rewrite app_length in IH. cbn [length] in IH. rewrite Nat.add_1_r in IH.
  rewrite <- app_assoc in IH. cbn [app] in IH. rewrite map_app, <- app_assoc in IH. exact IH.
Qed.
Lemma read_all_spec rest : forall l p, read_all (length p) (length l) (map Some (p ++ l) ++ rest) = Some l.
Proof.
  induction l as [|y r IH]; intros p; cbn [length read_all]; [easy|].
  specialize (IH (p ++ [y])). rewrite app_length in IH. cbn [length] in IH. rewrite Nat.add_1_r in IH.
  rewrite <- app_assoc in IH. cbn [app] in IH. rewrite IH. rewrite map_app, <- app_assoc. cbn [map app]. now rewrite sv_read_at.
Qed.
Lemma shift_loop_spec rest : forall l p x, exists rest', shift_loop (length p) (length l) (map Some (p ++ x :: l) ++ rest) = Some (map Some (p ++ l) ++ rest').
Proof.
  induction l as [|y r IH]; intros p x; cbn [length shift_loop].
  - rewrite app_nil_r. exists (Some x :: rest). rewrite map_app, <- app_assoc. easy.
  - replace (p ++ x :: y :: r) with ((p ++ [x]) ++ y :: r) by (rewrite <- app_assoc; easy).
    replace (S (length p)) with (length (p ++ [x])) by (rewrite app_length; cbn; lia).
    rewrite map_app, <- app_assoc. cbn [map app]. rewrite sv_read_at.
    rewrite map_app, <- app_assoc. cbn [map app]. rewrite sv_write_at.
    destruct (IH (p ++ [y]) y) as [rest' E]. exists rest'.
    rewrite <- (app_assoc p [y] r) in E. cbn [app] in E. rewrite <- E. f_equal.
    + rewrite !app_length. easy.
    + rewrite !map_app, <- !app_assoc. cbn [map app]. easy.
Qed.
Lemma remove_loop_spec x rest : forall l p, exists rest',
  remove_loop x (length p) (length l) (length p + length l) (map Some (p ++ l) ++ rest) = Some (map Some (p ++ remove_one x l) ++ rest', memb x l).
Proof.
  induction l as [|y r IH]; intros p; cbn [length remove_loop memb existsb remove_one].
  - now exists rest.
  - rewrite map_app, <- app_assoc. cbn [map app]. rewrite sv_read_at.
    replace (map Some p ++ Some y :: map Some r ++ rest) with (map Some (p ++ y :: r) ++ rest) by (rewrite map_app, <- app_assoc; easy).
    rewrite (Nat.eqb_sym x y). destruct (Nat.eqb_spec y x) as [->|Hne]; cbn [orb].
    + destruct (shift_loop_spec rest r p x) as [rest' E]. exists rest'.
      replace (length p + S (length r) - 1 - length p) with (length r) by lia. now rewrite E.
    + destruct (IH (p ++ [y])) as [rest' E]. exists rest'. rewrite app_length in E. cbn [length] in E. rewrite Nat.add_1_r in E.
      rewrite <- app_assoc in E. cbn [app] in E. rewrite <- app_assoc in E. cbn [app] in E.
      replace (length p + S (length r)) with (S (length p) + length r) by lia. exact E.
Qed.
Lemma sv_has_spec x l s : sv_rep l s -> sv_has x s = Some (memb x l).
Proof. intros [E [rest D]]. unfold sv_has. rewrite E, D. apply (has_loop_spec x rest l []). Qed.
Lemma sv_list_spec l s : sv_rep l s -> sv_list s = Some l.
Proof. intros [E [rest D]]. unfold sv_list. rewrite E, D. apply (read_all_spec rest l []). Qed.
Lemma sv_insert_spec CAP x u l s : 0 < CAP -> sv_rep l s ->
  exists s', sv_insert CAP (AVal x) u s = Some s' /\ sv_rep (if u && memb x l then l else l ++ [x]) s'.
Proof.
  intros HC H. unfold sv_insert. cbn [arg_val].
  assert (Hu : (if u then sv_has x s else Some false) = Some (u && memb x l)).
  { destruct u; cbn; [now apply sv_has_spec|easy]. }
  rewrite Hu. destruct (u && memb x l); [now exists s|]. destruct H as [E [rest D]].
  assert (Hw : forall d c q, d = map Some l ++ c :: q -> exists s', match sv_write (sv_cur s) x d with Some d' => Some (mkSV d' (S (sv_cur s))) | None => None end = Some s' /\ sv_rep (l ++ [x]) s').
  { intros d c q ->. rewrite E, sv_write_at. eexists. split; [reflexivity|]. split; cbn.
    - rewrite app_length. cbn. lia.
    - exists q. now rewrite map_some_snoc. }
  destruct (Nat.leb_spec (length (sv_data s)) (sv_cur s)) as [Hle|Hlt].
  - destruct rest as [|c q]; [|rewrite D, E, app_length, map_length in Hle; cbn in Hle; lia].
    rewrite app_nil_r in D. destruct CAP as [|n]; [lia|]. cbn [repeat]. apply (Hw _ None (repeat None n)). now rewrite D.
  - destruct rest as [|c q]; [rewrite D, E, app_length, map_length in Hlt; cbn in Hlt; lia|]. apply (Hw _ c q). now rewrite D.
Qed.
Lemma length_remove_one x : forall l, length (remove_one x l) = if memb x l then length l - 1 else length l.
Proof.
  induction l as [|y r IH]; cbn [remove_one memb existsb length]; [easy|]. rewrite (Nat.eqb_sym x y).
  destruct (Nat.eqb_spec y x); cbn [orb length]; [lia|]. fold (memb x r). rewrite IH. destruct (memb x r) eqn:E; [|easy].
  apply memb_in in E. destruct r; [easy|cbn; lia].
Qed.
Lemma sv_remove_spec x l s : sv_rep l s -> exists s', sv_remove x s = Some (s', memb x l) /\ sv_rep (remove_one x l) s'.
Proof.
  intros [E [rest D]]. unfold sv_remove. rewrite E, D. destruct (remove_loop_spec x rest l []) as [rest' Er]. cbn [length app] in Er.
  rewrite Nat.add_0_l in Er. rewrite Er. eexists. split; [reflexivity|]. split; cbn.
  - now rewrite length_remove_one.
  - now exists rest'.
Qed.
Lemma sv_clear_spec l s : sv_rep l s -> sv_rep [] (sv_clear s).
Proof. intros _. split; cbn; [easy|]. now eexists. Qed.
Lemma sv_step_spec CAP o h s : 0 < CAP -> sv_rep (vlist h) s -> exists s', sv_step CAP s (by_value o) = Some s' /\ sv_rep (vlist (o :: h)) s'.
Proof.
  intros HC H. destruct o as [x u|x|]; cbn [by_value sv_step vlist].
  - now apply sv_insert_spec.
  - destruct (sv_remove_spec x _ s H) as [s' [E R]]. rewrite E. now exists s'.
  - exists (sv_clear s). split; [easy|]. now apply (sv_clear_spec (vlist h)).
Qed.
Lemma sv_run_spec CAP : 0 < CAP -> forall h h0 s, sv_rep (vlist h0) s ->
  exists s', sv_run CAP s (map by_value h) = Some s' /\ sv_rep (vlist (rev h ++ h0)) s'.
Proof.
  intros HC. induction h as [|o r IH]; intros h0 s H; cbn [map sv_run].
  - now exists s.
  - destruct (sv_step_spec CAP o h0 s HC H) as [s1 [E1 H1]]. rewrite E1. destruct (IH (o :: h0) s1 H1) as [s2 [E2 H2]].
    exists s2. split; [easy|]. cbn [rev]. now rewrite <- app_assoc.
Qed.

(** * The backtrace *)
Definition ua_rep (l : list nat) (u : uarr) : Prop :=
  (forall x, In x (ua_set u) <-> In x l) /\ NoDup (ua_arr u) /\ (forall x, In x (ua_arr u) <-> In x l) /\
  (forall x y, before (ua_arr u) x y <-> used_first l x y).
Lemma used_first_snoc l x y z : used_first (l ++ [z]) x y <-> used_first l x y \/ (In x l /\ z = y /\ ~ In y l).
Proof.
  split.
  - intros [a [b [E [H1 [H2 H3]]]]]. destruct (exists_last (l := b)) as [b' [w Eb]]; [intros ->; easy|]. subst b.
    assert (Hl : l = a ++ x :: b').
    { rewrite app_comm_cons, app_assoc in E. apply app_inj_tail in E. easy. }
    assert (Hz : z = w). { rewrite app_comm_cons, app_assoc in E. apply app_inj_tail in E. easy. }
    subst z. destruct (in_dec_nat y b') as [Hi|Hi].
    + left. exists a, b'. easy.
    + right. apply in_app_or in H3. destruct H3 as [H3|[->|[]]]; [contradiction|]. split; [|split; [easy|]].
      * rewrite Hl. apply in_or_app. right. now left.
      * rewrite Hl. intros Hy. apply in_app_or in Hy. destruct Hy as [Hy|[Hy|Hy]]; try contradiction. 
  - intros [[a [b [E [H1 [H2 H3]]]]]|[H1 [-> H2]]].
    + exists a, (b ++ [z]). rewrite E, <- app_assoc. split; [easy|]. do 2 (split; [easy|]). apply in_or_app. now left.
    + apply in_split in H1. destruct H1 as [a [b ->]]. exists a, (b ++ [y]). rewrite <- app_assoc. split; [easy|].
      split; [|split].
      * intros H. apply H2. apply in_or_app. now left.
      * intros ->. apply H2. apply in_or_app. right. now left.
      * apply in_or_app. right. now left.
Qed.
Lemma used_first_in l x y : used_first l x y -> In y l.
Proof. intros [a [b [-> [_ [_ H]]]]]. apply in_or_app. right. now right. Qed.
Lemma before_snoc (l : list nat) x y z : before (l ++ [z]) x y <-> before l x y \/ (In x l /\ z = y).
Proof.
  split.
  - intros [a [b [c E]]]. destruct c as [|w c] using rev_ind.
    + right. rewrite app_comm_cons, app_assoc in E. apply app_inj_tail in E. destruct E as [-> ->]. split; [|easy]. apply in_or_app. right. now left.
    + clear IHc. left. exists a, b, c. replace (a ++ x :: b ++ y :: c ++ [w]) with ((a ++ x :: b ++ y :: c) ++ [w]) in E.
      2:{ rewrite <- app_assoc. cbn. rewrite <- app_assoc. easy. }
      apply app_inj_tail in E. easy.
  - intros [H|[H ->]]; [now apply before_app|now apply before_last].
Qed.
Lemma ua_add_rep l u x : ua_rep l u -> ua_rep (l ++ [x]) (ua_add x u).
Proof.
  intros [H1 [H2 [H3 H4]]]. unfold ua_add. destruct (memb x (ua_set u)) eqn:E.
  - apply memb_in in E. assert (Hx : In x l) by now apply H1.
    assert (Hin : forall y, In y l <-> In y (l ++ [x])).
    { intros y. rewrite in_app_iff. cbn. intuition congruence. }
    do 2 (split; [first [easy | intros y; now rewrite <- Hin]|]). split; [intros y; now rewrite <- Hin|].
    intros a b. rewrite H4, used_first_snoc. split; [now left|]. intros [H|[_ [-> Hb]]]; [easy|contradiction].
  - apply memb_false in E. assert (Hx : ~ In x l) by (intros H; apply E; now apply H1).
    split; [|split; [|split]]; cbn.
    + intros y. rewrite in_app_iff. cbn. rewrite H1. tauto.
    + apply NoDup_app_iff. split; [easy|]. split; [constructor; [easy|constructor]|]. intros y Hy [<-|[]]. apply Hx. now apply H3.
    + intros y. rewrite !in_app_iff, H3. easy.
    + intros a b. rewrite before_snoc, used_first_snoc, H4, H3. intuition congruence.
Qed.
Lemma ua_rep_nil : ua_rep [] (mkUA [] []).
Proof.
  split; [easy|]. split; [constructor|]. split; [easy|]. intros x y. split.
  - intros [a [b [c E]]]. now destruct a.
  - intros [a [b [E _]]]. now destruct a.
Qed.
Lemma bt_run_rep : forall h h0 p, bp_on p = true -> ua_rep (uses h0) (bp_arr p) ->
  bp_on (bt_run p h) = true /\ ua_rep (uses (rev h ++ h0)) (bp_arr (bt_run p h)).
Proof.
  induction h as [|o r IH]; intros h0 p Hon H; cbn [bt_run fold_left]; [easy|].
  replace (rev (o :: r) ++ h0) with (rev r ++ (o :: h0)) by (cbn; now rewrite <- app_assoc).
  apply IH; destruct o; cbn; rewrite ?Hon; cbn; try easy.
  - now apply ua_add_rep.
  - apply ua_rep_nil.
Qed.
Lemma bt_run_off : forall h p, bp_on p = false -> bt_run p h = p.
Proof. induction h as [|o r IH]; intros p Hp; [easy|]. change (bt_run (bt_step p o) r = p).
  assert (bt_step p o = p) as -> by (unfold bt_step; rewrite Hp; now destruct o). now apply IH.
Qed.
