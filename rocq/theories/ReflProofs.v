(** Proofs about binary reflection. *)
From Verif Require Export ReflSpec.
From Coq Require Import NArith Lia.
Local Open Scope nat_scope.
Local Open Scope list_scope.
Local Arguments le : simpl never.

Lemma le_length k n : length (le k n) = k.
Proof. revert n. induction k as [|k IH]; intros n; unfold le; fold le; cbn [length]; [easy|]. now rewrite IH. Qed.
Lemma de_le k : forall n, (n < 256 ^ N.of_nat k)%N -> de (le k n) = n.
Proof.
  induction k as [|k IH]; intros n H.
  - change (256 ^ N.of_nat 0)%N with 1%N in H. assert (n = 0%N) by lia. now subst.
  - unfold le. fold le. cbn [de]. rewrite IH.
    + pose proof (N.div_mod n 256). lia.
    + rewrite Nat2N.inj_succ, N.pow_succ_r' in H. apply N.div_lt_upper_bound; lia.
Qed.
Local Opaque le.
Definition MAX : N := (256 ^ 8)%N.
Lemma de_le8 n : (n < MAX)%N -> de (le 8 n) = n.
Proof. intros H. apply de_le. exact H. Qed.

Lemma put_mid a b c x : length b = length x -> put x (length a) (a ++ b ++ c) = Some (a ++ x ++ c).
Proof.
  intros H. unfold put. rewrite !app_length. destruct (Nat.leb_spec (length a + length x) (length a + (length b + length c))); [|lia].
  rewrite firstn_app, Nat.sub_diag, firstn_all, app_nil_r. do 3 f_equal.
  rewrite app_assoc, skipn_app, skipn_all2 by (rewrite app_length; lia). rewrite app_length. replace (length a + length x - (length a + length b)) with 0 by lia. easy.
Qed.
Lemma get_mid a x c n : length x = n -> get n (length a) (a ++ x ++ c) = Some x.
Proof.
  intros H. unfold get. rewrite !app_length. destruct (Nat.leb_spec (length a + n) (length a + (length x + length c))); [|lia].
  rewrite skipn_app, skipn_all, Nat.sub_diag. cbn. rewrite firstn_app, <- H, firstn_all, Nat.sub_diag. cbn. now rewrite app_nil_r.
Qed.
Lemma fold_size {A} (f : A -> nat) : forall l n, fold_left (fun acc x => acc + f x) l n = n + sumf f l.
Proof. induction l as [|x r IH]; intros n; cbn; [lia|]. rewrite IH. lia. Qed.
Lemma length_concat_map {A B} (f : A -> list B) l : length (concat (map f l)) = sumf (fun x => length (f x)) l.
Proof. induction l as [|x r IH]; cbn; [easy|]. now rewrite app_length, IH. Qed.
Lemma sumf_ext_in {A} (f g : A -> nat) l : (forall x, In x l -> f x = g x) -> sumf f l = sumf g l.
Proof. induction l as [|x r IH]; intros H; cbn; [easy|]. rewrite (H x (or_introl eq_refl)), IH; [easy|]. intros y Hy. apply H. now right. Qed.
Lemma size_encode : forall t id v, has_type t v -> refl_size t v = length (encode t id v).
Proof.
  induction t as [n| |t IH| |i t IHt r IHr]; intros id v H; destruct v; cbn [has_type] in H; try easy; cbn [refl_size encode length].
  - lia.
  - rewrite app_length, le_length, length_concat_map, fold_size. rewrite Forall_forall in H.
    rewrite (sumf_ext_in (refl_size t) (fun x => length (encode t id x))); [lia|]. intros x Hx. apply IH. now apply H.
  - destruct H as [H1 H2]. rewrite app_length, (IHt i v1 H1), (IHr i v2 H2). easy.
Qed.
Ltac lens := rewrite ?app_length, ?le_length, ?repeat_length in *; cbn [length] in *; rewrite ?app_length, ?le_length in *; cbn [length] in *; try lia.
Lemma split_mem (b : list N) (n m : nat) : n <= length b -> exists x y, b = x ++ y /\ length x = n.
Proof. intros H. exists (firstn n b), (skipn n b). rewrite firstn_skipn, firstn_length. split; [easy|lia]. Qed.
(** Writing puts exactly the encoding at the offset. *)
Lemma write_spec : forall t id v a b c, has_type t v -> length b = length (encode t id v) ->
  refl_write t id v (a ++ b ++ c) (length a) = Some (a ++ encode t id v ++ c, length a + length (encode t id v)).
Proof.
  induction t as [n| |t IH| |i t IHt r IHr]; intros id v a b c H Hl; destruct v as [x|x|l| |v1 v2]; cbn [has_type] in H; try easy; cbn [refl_write encode length app] in *.
  - destruct b as [|b0 b]; [discriminate|]. pose proof (put_mid a [b0] (b ++ c) [id] eq_refl) as P1. cbn [app] in P1. cbn [app]. rewrite P1.
    pose proof (put_mid (a ++ [id]) b c x) as P2. lens. rewrite <- !app_assoc in P2. cbn [app] in P2. rewrite P2 by lia. do 2 f_equal. lia.
  - destruct b as [|b0 b]; [discriminate|]. pose proof (put_mid a [b0] (b ++ c) [id] eq_refl) as P1. cbn [app] in P1. cbn [app]. rewrite P1.
    destruct (split_mem b 8 0) as [b1 [b2 [-> Hb1]]]; [lens|].
    pose proof (put_mid (a ++ [id]) b1 (b2 ++ c) (le 8 (N.of_nat (length x)))) as P2. lens. rewrite <- !app_assoc in P2. cbn [app] in P2. rewrite <- app_assoc. rewrite P2 by lia.
    pose proof (put_mid (a ++ [id] ++ le 8 (N.of_nat (length x))) b2 c x) as P3. lens. rewrite <- !app_assoc in P3. cbn [app] in P3.
    replace (length a + 1 + 8) with (length a + (1 + 8)) by lia. cbn [app] in P3. rewrite P3 by lia. rewrite <- !app_assoc. do 2 f_equal. lia.
  - destruct b as [|b0 b]; [discriminate|]. pose proof (put_mid a [b0] (b ++ c) [id] eq_refl) as P1. cbn [app] in P1. cbn [app]. rewrite P1.
    destruct (split_mem b 8 0) as [b1 [b2 [-> Hb1]]]; [lens|].
    pose proof (put_mid (a ++ [id]) b1 (b2 ++ c) (le 8 0)) as P2. lens. rewrite <- !app_assoc in P2. cbn [app] in P2. rewrite <- app_assoc. rewrite P2 by lia.
    assert (HW : forall l a b c, Forall (has_type t) l -> length b = length (concat (map (encode t id) l)) ->
              write_all (refl_write t id) l (a ++ b ++ c) (length a) = Some (a ++ concat (map (encode t id) l) ++ c, length a + length (concat (map (encode t id) l)))).
    { clear - IH. induction l as [|x l IHl]; intros a b c H Hl; cbn [map concat write_all] in *.
      - destruct b; [|discriminate]. rewrite Nat.add_0_r. easy.
      - inversion H; subst. destruct (split_mem b (length (encode t id x)) 0) as [b1 [b2 [-> Hb1]]]; [lens|].
        rewrite <- app_assoc. rewrite (IH id x a b1 (b2 ++ c)) by easy.
        pose proof (IHl (a ++ encode t id x) b2 c H3) as P. lens. rewrite <- !app_assoc in P. rewrite P by lia. rewrite <- app_assoc. do 2 f_equal. lia. }
    pose proof (HW l (a ++ [id] ++ le 8 0) b2 c H) as P3. lens. rewrite <- !app_assoc in P3. cbn [app] in P3.
    replace (length a + 1 + 8) with (length a + (1 + 8)) by lia. rewrite P3 by lia.
    pose proof (put_mid (a ++ [id]) (le 8 0) (concat (map (encode t id) l) ++ c) (le 8 (N.of_nat (length (concat (map (encode t id) l)))))) as P4. lens.
    rewrite <- !app_assoc in P4. cbn [app] in P4.
    replace (length a + (1 + 8) + length (concat (map (encode t id) l)) - (length a + 1) - 8) with (length (concat (map (encode t id) l))) by lia.
    rewrite P4 by lia. rewrite <- !app_assoc. do 2 f_equal. lia.
  - destruct b; [|discriminate]. rewrite Nat.add_0_r. easy.
  - destruct H as [H1 H2]. destruct (split_mem b (length (encode t i v1)) 0) as [b1 [b2 [-> Hb1]]]; [lens|].
    rewrite <- app_assoc. rewrite (IHt i v1 a b1 (b2 ++ c)) by easy. pose proof (IHr i v2 (a ++ encode t i v1) b2 c H2) as P. lens. rewrite <- !app_assoc in P. rewrite P by lia.
    rewrite <- app_assoc. do 2 f_equal. lia.
Qed.
Lemma solid_encode : forall t id v, solid t = true -> has_type t v -> 1 <= length (encode t id v).
Proof.
  induction t as [n| |t IH| |i t IHt r IHr]; intros id v Hs H; destruct v; cbn [has_type] in H; try easy; cbn [encode length solid] in *; try lia; try discriminate.
  destruct H as [H1 H2]. rewrite app_length. apply Bool.orb_true_iff in Hs. destruct Hs as [Hs|Hs]; [specialize (IHt i v1 Hs H1)|specialize (IHr i v2 Hs H2)]; lia.
Qed.
Lemma overlay_fresh : forall t v, has_type t v -> overlay t (fresh t) v = v.
Proof.
  induction t as [n| |t IH| |i t IHt r IHr]; intros v H; destruct v; cbn [has_type] in H; try easy. destruct H as [H1 H2]. cbn. now rewrite IHt, IHr.
Qed.
Lemma fresh_type : forall t, has_type t (fresh t).
Proof. induction t; cbn; try easy. now rewrite repeat_length. Qed.
(** Reading over [old] at the place of the encoding. *)
Lemma read_spec : forall t id v a c old, supported_ty t = true -> has_type t v -> has_type t old -> (N.of_nat (length (encode t id v)) < MAX)%N ->
  refl_read t (a ++ encode t id v ++ c) (length a) old = Some (overlay t old v, length a + length (encode t id v)).
Proof.
  induction t as [n| |t IH| |i t IHt r IHr]; intros id v a c old Hs H Ho Hm; destruct v as [x|x|l| |v1 v2]; cbn [has_type] in H; try contradiction;
    destruct old as [ox|ox|ol| |o1 o2]; cbn [has_type] in Ho; try contradiction; cbn [refl_read encode supported_ty overlay] in *.
  - pose proof (get_mid a [id] (x ++ c) 1 eq_refl) as P1. cbn [app] in *. rewrite P1. pose proof (get_mid (a ++ [id]) x c n H) as P2. lens. rewrite <- !app_assoc in P2. cbn [app] in P2. rewrite P2.
    do 2 f_equal. lia.
  - pose proof (get_mid a [id] (le 8 (N.of_nat (length x)) ++ x ++ c) 1 eq_refl) as P1. cbn [app] in *. rewrite <- app_assoc. rewrite P1.
    pose proof (get_mid (a ++ [id]) (le 8 (N.of_nat (length x))) (x ++ c) 8 (le_length _ _)) as P2. lens. rewrite <- !app_assoc in P2. cbn [app] in P2. rewrite P2.
    rewrite de_le8 by lia. rewrite Nat2N.id. pose proof (get_mid (a ++ [id] ++ le 8 (N.of_nat (length x))) x c _ eq_refl) as P3. lens. rewrite <- !app_assoc in P3. cbn [app] in P3.
    replace (length a + 1 + 8) with (length a + (1 + 8)) by lia. rewrite P3. do 2 f_equal. lia.
  - apply Bool.andb_true_iff in Hs. destruct Hs as [Hso Hs]. set (body := concat (map (encode t id) l)) in *.
    pose proof (get_mid a [id] (le 8 (N.of_nat (length body)) ++ body ++ c) 1 eq_refl) as P1. cbn [app] in *. rewrite <- app_assoc. rewrite P1.
    pose proof (get_mid (a ++ [id]) (le 8 (N.of_nat (length body))) (body ++ c) 8 (le_length _ _)) as P2. lens. rewrite <- !app_assoc in P2. cbn [app] in P2. rewrite P2.
    rewrite de_le8 by lia. rewrite Nat2N.id.
    assert (HR : forall l pre acc fuel, Forall (has_type t) l -> (N.of_nat (length (concat (map (encode t id) l))) < MAX)%N -> length l < fuel ->
      read_all fuel (fun o => refl_read t (pre ++ concat (map (encode t id) l) ++ c) o (fresh t)) (length pre + length (concat (map (encode t id) l))) (length pre) acc = Some (acc ++ l)).
    { clear - IH Hso Hs. induction l as [|x l IHl]; intros pre acc fuel H Hm Hf; (destruct fuel as [|fuel]; [lia|]); cbn [map concat read_all].
      - cbn [length]. rewrite Nat.add_0_r, Nat.leb_refl. now rewrite app_nil_r.
      - inversion H; subst. cbn [map concat] in Hm. pose proof (solid_encode t id x Hso H2) as Hx. lens.
        destruct (Nat.leb_spec (length pre + (length (encode t id x) + length (concat (map (encode t id) l)))) (length pre)); [lia|].
        pose proof (IH id x pre (concat (map (encode t id) l) ++ c) (fresh t) Hs H2 (fresh_type t)) as P. rewrite <- app_assoc. rewrite P by lia. rewrite overlay_fresh by easy.
        pose proof (IHl (pre ++ encode t id x) (acc ++ [x]) fuel H3) as Q. lens. rewrite <- !app_assoc in Q. cbn [app] in Q.
        replace (length pre + (length (encode t id x) + length (concat (map (encode t id) l)))) with (length pre + length (encode t id x) + length (concat (map (encode t id) l))) by lia. apply Q; lia. }
    assert (Hll : length l <= length body).
    { unfold body. rewrite length_concat_map. clear - Hso H. induction l as [|x l IHl]; cbn; [lia|]. inversion H; subst. specialize (IHl H3). pose proof (solid_encode t id x Hso H2). lia. }
    pose proof (HR l (a ++ [id] ++ le 8 (N.of_nat (length body))) ol (S (S (length (a ++ id :: le 8 (N.of_nat (length body)) ++ body ++ c)))) H) as P3. fold body in P3. lens. rewrite <- !app_assoc in P3. cbn [app] in P3.
    replace (length a + 1 + 8) with (length a + (1 + 8)) by lia.
    rewrite P3 by lia. do 2 f_equal. lia.
  - rewrite Nat.add_0_r. easy.
  - apply Bool.andb_true_iff in Hs. destruct Hs as [Hs1 Hs2]. destruct H as [H1 H2]. destruct Ho as [Ho1 Ho2]. lens. rewrite <- app_assoc.
    rewrite (IHt i v1 a (encode r i v2 ++ c) o1 Hs1 H1 Ho1) by lia.
    pose proof (IHr i v2 (a ++ encode t i v1) c o2 Hs2 H2 Ho2) as P. lens. rewrite <- !app_assoc in P. rewrite P by lia. do 2 f_equal. lia.
Qed.
Lemma get_short n off mem : length mem < off + n -> get n off mem = None.
Proof. intros H. unfold get. destruct (Nat.leb_spec (off + n) (length mem)); [lia|easy]. Qed.
Lemma get_some n off mem : off + n <= length mem -> exists b, get n off mem = Some b.
Proof. intros H. unfold get. destruct (Nat.leb_spec (off + n) (length mem)); [now eexists|lia]. Qed.
Lemma prefix_split {A} (p q x y : list A) : p ++ q = x ++ y -> length x <= length p -> exists p', p = x ++ p' /\ y = p' ++ q.
Proof.
  revert p. induction x as [|h x IH]; intros p E Hl; cbn in *; [now exists p|]. destruct p as [|h' p]; cbn in *; [lia|]. injection E as -> E.
  destruct (IH p E) as [p' [-> ->]]; [lia|]. now exists p'.
Qed.
(** Reading a proper prefix of an encoding runs past the end. *)
Lemma read_prefix : forall t id v a p q old, supported_ty t = true -> has_type t v -> has_type t old -> (N.of_nat (length (encode t id v)) < MAX)%N ->
  encode t id v = p ++ q -> q <> [] -> refl_read t (a ++ p) (length a) old = None.
Proof.
  induction t as [n| |t IH| |i t IHt r IHr]; intros id v a p q old Hs H Ho Hm E Hq; destruct v as [x|x|l| |v1 v2]; cbn [has_type] in H; try contradiction;
    destruct old as [ox|ox|ol| |o1 o2]; cbn [has_type] in Ho; try contradiction; cbn [refl_read encode supported_ty] in *;
    assert (Hq1 : 1 <= length q) by (destruct q; [congruence|cbn; lia]); pose proof (f_equal (@length N) E) as EL.
  - destruct p as [|p0 p]; [rewrite get_short by lens; easy|]. destruct (get_some 1 (length a) (a ++ p0 :: p)) as [b1 ->]; [lens|].
    rewrite get_short by lens. easy.
  - destruct p as [|p0 p]; [rewrite get_short by lens; easy|]. injection E as -> E. destruct (get_some 1 (length a) (a ++ p0 :: p)) as [b1 ->]; [lens|].
    destruct (Nat.le_gt_cases 8 (length p)) as [H8|H8]; [|rewrite get_short by lens; easy].
    destruct (prefix_split p q _ _ (eq_sym E)) as [p' [-> E']]; [now rewrite le_length|].
    pose proof (get_mid (a ++ [p0]) (le 8 (N.of_nat (length x))) p' 8 (le_length _ _)) as P2. lens. rewrite <- !app_assoc in P2. cbn [app] in P2. rewrite P2.
    rewrite de_le8 by lia. rewrite Nat2N.id. rewrite get_short; [easy|]. lens.
  - apply Bool.andb_true_iff in Hs. destruct Hs as [Hso Hs]. set (body := concat (map (encode t id) l)) in *.
    destruct p as [|p0 p]; [rewrite get_short by lens; easy|]. injection E as -> E. destruct (get_some 1 (length a) (a ++ p0 :: p)) as [b1 ->]; [lens|].
    destruct (Nat.le_gt_cases 8 (length p)) as [H8|H8]; [|rewrite get_short by lens; easy].
    destruct (prefix_split p q _ _ (eq_sym E)) as [p' [-> E']]; [now rewrite le_length|].
    pose proof (get_mid (a ++ [p0]) (le 8 (N.of_nat (length body))) p' 8 (le_length _ _)) as P2. lens. rewrite <- !app_assoc in P2. cbn [app] in P2. rewrite P2.
    rewrite de_le8 by lia. rewrite Nat2N.id.
    assert (HR : forall l pre p' acc fuel, Forall (has_type t) l -> (N.of_nat (length (concat (map (encode t p0) l))) < MAX)%N -> concat (map (encode t p0) l) = p' ++ q ->
      read_all fuel (fun o => refl_read t (pre ++ p') o (fresh t)) (length pre + length (concat (map (encode t p0) l))) (length pre) acc = None).
    { clear - IH Hso Hs Hq Hq1. induction l as [|x l IHl]; intros pre p' acc fuel H Hm E; cbn [map concat] in *.
      - destruct p'; [cbn in E; subst; cbn in Hq1; lia|discriminate].
      - destruct fuel as [|fuel]; [easy|]. cbn [read_all]. inversion H; subst. pose proof (solid_encode t p0 x Hso H2) as Hx. lens.
        destruct (Nat.leb_spec (length pre + (length (encode t p0 x) + length (concat (map (encode t p0) l)))) (length pre)); [lia|].
        destruct (Nat.le_gt_cases (length (encode t p0 x)) (length p')) as [Hle|Hgt].
        + destruct (prefix_split p' q _ _ (eq_sym E) Hle) as [p2 [-> E2]].
          rewrite (read_spec t p0 x pre p2 (fresh t) Hs H2 (fresh_type t)) by lia.
          pose proof (IHl (pre ++ encode t p0 x) p2 (acc ++ [overlay t (fresh t) x]) fuel H3) as Q. lens. rewrite <- !app_assoc in Q.
          replace (length pre + (length (encode t p0 x) + length (concat (map (encode t p0) l)))) with (length pre + length (encode t p0 x) + length (concat (map (encode t p0) l))) by lia. apply Q; [lia|easy].
        + assert (Hlt : length p' <= length (encode t p0 x)) by lia. destruct (prefix_split (encode t p0 x) (concat (map (encode t p0) l)) p' q E Hlt) as [q' [Eq _]].
          rewrite (IH p0 x pre p' q' (fresh t) Hs H2 (fresh_type t)); [easy|lia|easy|]. intros ->. rewrite app_nil_r in Eq. rewrite Eq in Hgt. lia. }
    pose proof (HR l (a ++ [p0] ++ le 8 (N.of_nat (length body))) p' ol (S (S (length (a ++ p0 :: le 8 (N.of_nat (length body)) ++ p')))) H) as P3. fold body in P3. lens. rewrite <- !app_assoc in P3. cbn [app] in P3.
    replace (length a + 1 + 8) with (length a + (1 + 8)) by lia. rewrite P3; [easy|lia|easy].
  - cbn in EL. lens.
  - apply Bool.andb_true_iff in Hs. destruct Hs as [Hs1 Hs2]. destruct H as [H1 H2]. destruct Ho as [Ho1 Ho2]. lens.
    destruct (Nat.le_gt_cases (length (encode t i v1)) (length p)) as [Hle|Hgt].
    + destruct (prefix_split p q _ _ (eq_sym E) Hle) as [p2 [-> E2]]. rewrite (read_spec t i v1 a p2 o1 Hs1 H1 Ho1) by lia.
      pose proof (IHr i v2 (a ++ encode t i v1) p2 q o2 Hs2 H2 Ho2) as P. lens. rewrite <- !app_assoc in P. rewrite P; [easy|lia|easy|easy].
    + assert (Hlt : length p <= length (encode t i v1)) by lia. destruct (prefix_split (encode t i v1) (encode r i v2) p q E Hlt) as [q' [Eq _]].
      rewrite (IHt i v1 a p q' o1 Hs1 H1 Ho1); [easy|lia|easy|]. intros ->. rewrite app_nil_r in Eq. rewrite Eq in Hgt. lia.
Qed.
