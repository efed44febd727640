(** Property theorems on binary reflection. *)
From Verif Require Import ReflProofs.
From Coq Require Import NArith Lia.
Local Open Scope nat_scope.
Local Open Scope list_scope.

(** C38: for every type built from fixed-size fields, strings, vectors and nested structures (vector elements taking at least one
    byte), and every value whose size fits size_t: writing into any buffer of the announced size stays inside it, and reading the
    result into a fresh object gives the value back. *)
Theorem C38_round_trip : forall t v mem, supported_ty t = true -> has_type t v -> (N.of_nat (u_size t v) < 256 ^ 8)%N -> length mem = u_size t v ->
  exists mem', u_write t v mem = Some mem' /\ length mem' = u_size t v /\ u_read t mem' (fresh t) = Some v.
Proof.
  intros t v mem Hs H Hm Hl. unfold u_size in *. rewrite (size_encode t 0%N v H) in *. pose proof (write_spec t 0%N v [] mem [] H Hl) as W. cbn [app length] in W. rewrite !app_nil_r in W.
  exists (encode t 0%N v). unfold u_write. rewrite W. do 2 (split; [easy|]). unfold u_read.
  pose proof (read_spec t 0%N v [] [] (fresh t) Hs H (fresh_type t) Hm) as R. cbn [app length] in R. rewrite !app_nil_r in R. rewrite R. now rewrite overlay_fresh.
Qed.
(** Inside a larger buffer, a write changes exactly the announced number of bytes from the current offset and ends behind them; the
    read consumes exactly these bytes, whatever surrounds them. *)
Theorem C38_extent : forall t id v a b c, supported_ty t = true -> has_type t v -> (N.of_nat (refl_size t v) < 256 ^ 8)%N -> length b = refl_size t v ->
  exists e, length e = refl_size t v /\
    refl_write t id v (a ++ b ++ c) (length a) = Some (a ++ e ++ c, length a + refl_size t v) /\
    refl_read t (a ++ e ++ c) (length a) (fresh t) = Some (v, length a + refl_size t v).
Proof.
  intros t id v a b c Hs H Hm Hl. rewrite (size_encode t id v H) in *. exists (encode t id v). split; [easy|]. split; [now apply write_spec|].
  rewrite (read_spec t id v a c (fresh t) Hs H (fresh_type t) Hm). now rewrite overlay_fresh.
Qed.
(** Two values of one type are written alike only if they are equal. *)
Theorem C38_injective : forall t v w mem mem', supported_ty t = true -> has_type t v -> has_type t w ->
  (N.of_nat (u_size t v) < 256 ^ 8)%N -> (N.of_nat (u_size t w) < 256 ^ 8)%N -> length mem = u_size t v -> length mem' = u_size t w ->
  u_write t v mem = u_write t w mem' -> v = w.
Proof.
  intros t v w mem mem' Hs Hv Hw Mv Mw Lv Lw E. destruct (C38_round_trip t v mem Hs Hv Mv Lv) as [m1 [E1 [_ R1]]].
  destruct (C38_round_trip t w mem' Hs Hw Mw Lw) as [m2 [E2 [_ R2]]]. rewrite E1, E2 in E. injection E as ->. rewrite R1 in R2. now injection R2.
Qed.
(** A buffer smaller than announced is overrun. *)
Theorem C38_size_needed : forall t v mem, has_type t v -> length mem < u_size t v -> u_write t v mem = None.
Proof.
  assert (HP : forall b off mem, length mem < off + length b -> put b off mem = None).
  { intros b off mem Hl. unfold put. destruct (Nat.leb_spec (off + length b) (length mem)); [lia|easy]. }
  assert (HL : forall b off mem m, put b off mem = Some m -> length m = length mem).
  { intros b off mem m E. unfold put in E. destruct (Nat.leb_spec (off + length b) (length mem)) as [Hl|]; [|discriminate]. injection E as <-.
    rewrite !app_length, firstn_length, skipn_length. lia. }
  assert (HW : forall t id v mem off m o, has_type t v -> refl_write t id v mem off = Some (m, o) -> length m = length mem /\ o = off + refl_size t v /\ (off <= length mem -> o <= length mem)).
  { induction t as [n| |t IH| |i t IHt r IHr]; intros id v mem off m o Ht E; destruct v as [x|x|l| |v1 v2]; cbn [has_type] in Ht; try contradiction; cbn [refl_write] in E.
    - destruct (put [id] off mem) as [m1|] eqn:E1; [|discriminate]. destruct (put x (off + 1) m1) as [m2|] eqn:E2; [|discriminate]. injection E as <- <-.
      pose proof (HL _ _ _ _ E1). pose proof (HL _ _ _ _ E2). cbn [refl_size]. do 2 (split; [lia|]). intros _.
      unfold put in E2. destruct (Nat.leb_spec (off + 1 + length x) (length m1)); [lia|discriminate].
    - destruct (put [id] off mem) as [m1|] eqn:E1; [|discriminate]. destruct (put (le 8 _) (off + 1) m1) as [m2|] eqn:E2; [|discriminate].
      destruct (put x (off + 1 + 8) m2) as [m3|] eqn:E3; [|discriminate]. injection E as <- <-.
      pose proof (HL _ _ _ _ E1). pose proof (HL _ _ _ _ E2). pose proof (HL _ _ _ _ E3). cbn [refl_size]. do 2 (split; [lia|]). intros _.
      unfold put in E3. destruct (Nat.leb_spec (off + 1 + 8 + length x) (length m2)); [lia|discriminate].
    - destruct (put [id] off mem) as [m1|] eqn:E1; [|discriminate]. destruct (put (le 8 _) (off + 1) m1) as [m2|] eqn:E2; [|discriminate].
      destruct (write_all (refl_write t id) l m2 (off + 1 + 8)) as [[m3 o3]|] eqn:E3; [|discriminate]. destruct (put (le 8 _) (off + 1) m3) as [m4|] eqn:E4; [|discriminate]. injection E as <- <-.
      pose proof (HL _ _ _ _ E1). pose proof (HL _ _ _ _ E2). pose proof (HL _ _ _ _ E4).
      assert (HA : forall l mem off m o, Forall (has_type t) l -> write_all (refl_write t id) l mem off = Some (m, o) -> length m = length mem /\ o = off + sumf (refl_size t) l /\ (off <= length mem -> o <= length mem)).
      { clear - IH. induction l as [|x l IHl]; intros mem off m o Ht E; cbn in E; [injection E as <- <-; cbn; repeat split; lia|]. inversion Ht; subst.
        destruct (refl_write t id x mem off) as [[m1 o1]|] eqn:E1; [|discriminate]. destruct (IH id x mem off m1 o1 H1 E1) as [A1 [A2 A3]].
        destruct (IHl m1 o1 m o H2 E) as [B1 [B2 B3]]. cbn. split; [lia|]. split; [lia|]. intros Ho. specialize (A3 Ho). rewrite A1 in B3. now apply B3. }
      destruct (HA l m2 (off + 1 + 8) m3 o3 Ht E3) as [A1 [A2 A3]]. cbn [refl_size]. rewrite fold_size. split; [lia|]. split; [lia|]. intros _.
      assert (length m2 = length mem) by lia. rewrite <- H2. apply A3. unfold put in E2. destruct (Nat.leb_spec (off + 1 + length (le 8 0)) (length m1)) as [Hle|]; [rewrite le_length in Hle; lia|discriminate].
    - injection E as <- <-. cbn. repeat split; lia.
    - destruct Ht as [T1 T2]. destruct (refl_write t i v1 mem off) as [[m1 o1]|] eqn:E1; [|discriminate].
      destruct (IHt i v1 mem off m1 o1 T1 E1) as [A1 [A2 A3]]. destruct (IHr i v2 m1 o1 m o T2 E) as [B1 [B2 B3]]. cbn [refl_size]. split; [lia|]. split; [lia|].
      intros Ho. specialize (A3 Ho). rewrite A1 in B3. now apply B3. }
  intros t v mem Ht Hl. unfold u_write. destruct (refl_write t 0 v mem 0) as [[m o]|] eqn:E; [|easy]. destruct (HW t 0%N v mem 0 m o Ht E) as [_ [H1 H2]]. unfold u_size in Hl. lia.
Qed.
(** Why the elements of a vector must take a byte: a vector of field-less structures comes back empty. *)
Theorem C38_empty_elements : forall l mem, has_type (TVec TUnit) (VVec l) -> length mem = u_size (TVec TUnit) (VVec l) ->
  exists mem', u_write (TVec TUnit) (VVec l) mem = Some mem' /\ u_read (TVec TUnit) mem' (VVec []) = Some (VVec []).
Proof.
  intros l mem H Hl. unfold u_size in Hl. rewrite (size_encode _ 0%N _ H) in Hl. pose proof (write_spec (TVec TUnit) 0%N (VVec l) [] mem [] H Hl) as W. cbn [app length] in W. rewrite !app_nil_r in W.
  exists (encode (TVec TUnit) 0%N (VVec l)). unfold u_write. rewrite W. split; [easy|].
  assert (E : encode (TVec TUnit) 0%N (VVec l) = encode (TVec TUnit) 0%N (VVec [])).
  { assert (EN : concat (map (encode TUnit 0%N) l) = []).
    { clear - H. cbn [has_type] in H. induction H as [|x l Hx Hl IHl]; [easy|]. cbn [map concat]. rewrite IHl. now destruct x. }
    change (0%N :: le 8 (N.of_nat (length (concat (map (encode TUnit 0%N) l)))) ++ concat (map (encode TUnit 0%N) l) = 0%N :: le 8 0 ++ []). now rewrite EN. }
  rewrite E. vm_compute. easy.
Qed.
Definition refl_t : ty := TField 1 (TFix 4) (TField 2 (TVec (TField 1 TStr (TField 2 (TVec (TFix 1)) TUnit))) (TField 3 TStr TUnit)).
Definition refl_v : value := VField (VFix [1; 2; 3; 4]%N) (VField (VVec [VField (VStr [65; 66]%N) (VField (VVec [VFix [1]; VFix [0]]%N) VUnit); VField (VStr []) (VField (VVec []) VUnit)]) (VField (VStr [67]%N) VUnit)).
Example C38_case : supported_ty refl_t = true /\ has_type refl_t refl_v /\ u_size refl_t refl_v = 66 /\
  match u_write refl_t refl_v (repeat 0%N 66) with Some m => u_read refl_t m (fresh refl_t) = Some refl_v | None => False end.
Proof. split; [reflexivity|]. split; [cbn; repeat (split || constructor)|]. vm_compute. easy. Qed.
Print Assumptions C38_round_trip. Print Assumptions C38_extent. Print Assumptions C38_injective. Print Assumptions C38_size_needed. Print Assumptions C38_empty_elements.

(** C68, refuted: reading into an object whose vector is not empty does not give the value written. *)
Theorem C68_reread_refuted : forall t x y, supported_ty t = true -> solid t = true -> has_type t x -> has_type t y -> (N.of_nat (u_size (TVec t) (VVec [y])) < 256 ^ 8)%N ->
  exists mem, u_write (TVec t) (VVec [y]) (repeat 0%N (u_size (TVec t) (VVec [y]))) = Some mem /\ u_read (TVec t) mem (VVec [x]) = Some (VVec [x; y]).
Proof.
  intros t x y Hs Ho Hx Hy Hm. assert (H : has_type (TVec t) (VVec [y])) by (cbn; auto). unfold u_size in *. rewrite (size_encode _ 0%N _ H) in *.
  pose proof (write_spec (TVec t) 0%N (VVec [y]) [] (repeat 0%N (length (encode (TVec t) 0 (VVec [y])))) [] H (repeat_length _ _)) as W. cbn [app length] in W. rewrite !app_nil_r in W.
  eexists. unfold u_write. rewrite W. split; [reflexivity|]. unfold u_read.
  pose proof (read_spec (TVec t) 0%N (VVec [y]) [] [] (VVec [x])) as R. cbn [app length supported_ty] in R. rewrite !app_nil_r in R. rewrite R; [easy|now rewrite Ho, Hs|easy|cbn; auto|easy].
Qed.
(** C68, what holds: everything but vectors is replaced by the value read; a vector keeps its elements in front of those read, and an
    object all of whose vectors are empty becomes the value written. *)
Fixpoint no_elements (t : ty) (v : value) : Prop :=
  match t, v with TVec _, VVec l => l = [] | TField _ t' r, VField x y => no_elements t' x /\ no_elements r y | _, _ => True end.
Theorem C68_reread_partial : forall t v old mem, supported_ty t = true -> has_type t v -> has_type t old -> (N.of_nat (u_size t v) < 256 ^ 8)%N -> length mem = u_size t v ->
  exists mem', u_write t v mem = Some mem' /\ u_read t mem' old = Some (overlay t old v) /\ (no_elements t old -> overlay t old v = v).
Proof.
  intros t v old mem Hs H Ho Hm Hl. unfold u_size in *. rewrite (size_encode t 0%N v H) in *. pose proof (write_spec t 0%N v [] mem [] H Hl) as W. cbn [app length] in W. rewrite !app_nil_r in W.
  exists (encode t 0%N v). unfold u_write. rewrite W. split; [easy|]. split.
  - unfold u_read. pose proof (read_spec t 0%N v [] [] old Hs H Ho Hm) as R. cbn [app length] in R. rewrite !app_nil_r in R. now rewrite R.
  - clear - H Ho. revert v old H Ho. induction t as [n| |t IH| |i t IHt r IHr]; intros v old H Ho Hn; destruct v, old; cbn [has_type] in H, Ho; try contradiction; cbn in *; try easy.
    + now subst.
    + destruct H, Ho, Hn. now rewrite IHt, IHr.
Qed.
Example C68_case : no_elements refl_t (fresh refl_t) /\ overlay refl_t refl_v refl_v <> refl_v.
Proof. split; [cbn; easy|]. vm_compute. discriminate. Qed.
Print Assumptions C68_reread_refuted. Print Assumptions C68_reread_partial.

(** C69, refuted: no truncation of a written buffer is reported; each one makes the read run past the end of the buffer. *)
Theorem C69_truncated_refuted : forall t v mem mem' k, supported_ty t = true -> has_type t v -> (N.of_nat (u_size t v) < 256 ^ 8)%N -> length mem = u_size t v ->
  u_write t v mem = Some mem' -> k < u_size t v -> u_read t (firstn k mem') (fresh t) = None.
Proof.
  intros t v mem mem' k Hs H Hm Hl E Hk. unfold u_size in *. rewrite (size_encode t 0%N v H) in *. pose proof (write_spec t 0%N v [] mem [] H Hl) as W. cbn [app length] in W. rewrite !app_nil_r in W.
  unfold u_write in E. rewrite W in E. injection E as <-. unfold u_read.
  pose proof (read_prefix t 0%N v [] (firstn k (encode t 0 v)) (skipn k (encode t 0 v)) (fresh t) Hs H (fresh_type t) Hm) as P. cbn [app length] in P. rewrite P; [easy|now rewrite firstn_skipn|].
  intros E. pose proof (f_equal (@length N) E) as EL. rewrite skipn_length in EL. cbn in EL. lia.
Qed.
(** Field ids are ignored: whatever id bytes the file holds, and whatever ids the reading type has, the result is the same. *)
Fixpoint same_shape (t u : ty) : Prop :=
  match t, u with
  | TFix n, TFix m => n = m
  | TStr, TStr | TUnit, TUnit => True
  | TVec a, TVec b => same_shape a b
  | TField _ a r, TField _ b q => same_shape a b /\ same_shape r q
  | _, _ => False
  end.
Theorem C69_ids_refuted : forall t u v mem, same_shape t u -> supported_ty t = true -> has_type t v -> (N.of_nat (u_size t v) < 256 ^ 8)%N -> length mem = u_size t v ->
  exists mem', u_write t v mem = Some mem' /\ u_read u mem' (fresh u) = Some v.
Proof.
  intros t u v mem Hsh Hs H Hm Hl. destruct (C38_round_trip t v mem Hs H Hm Hl) as [m [E [_ R]]]. exists m. split; [easy|].
  assert (HF : forall t u, same_shape t u -> fresh t = fresh u).
  { clear. induction t as [n| |t IH| |i t IHt r IHr]; intros u Hsh; destruct u; cbn in *; try contradiction; try easy; [now subst|]. destruct Hsh as [A B]. now rewrite (IHt _ A), (IHr _ B). }
  assert (HR : forall t u, same_shape t u -> forall m o old, refl_read t m o old = refl_read u m o old).
  { clear - HF. induction t as [n| |t IH| |i t IHt r IHr]; intros u Hsh; destruct u as [n'| |u| |i' u1 u2]; cbn [same_shape] in Hsh; try contradiction; intros m o old; cbn [refl_read].
    - now subst.
    - easy.
    - rewrite (HF t u Hsh). destruct (get 1 o m); [|easy]. destruct (get 8 (o + 1) m) as [lb|]; [|easy].
      assert (HA : forall fuel stop off acc, read_all fuel (fun o0 => refl_read t m o0 (fresh u)) stop off acc = read_all fuel (fun o0 => refl_read u m o0 (fresh u)) stop off acc).
      { induction fuel as [|f IHf]; intros stop off acc; cbn; [easy|]. destruct (stop <=? off); [easy|]. rewrite (IH u Hsh). destruct (refl_read u m off (fresh u)) as [[x o']|]; [|easy]. apply IHf. }
      now rewrite HA.
    - easy.
    - destruct Hsh as [A B]. rewrite (HF t u1 A), (HF r u2 B). rewrite (IHt u1 A). destruct (refl_read u1 m o _) as [[x o']|]; [|easy]. now rewrite (IHr u2 B). }
  unfold u_read in *. now rewrite <- (HR t u Hsh), <- (HF t u Hsh).
Qed.
Example C69_case : u_read refl_t (firstn 20 (repeat 0%N 66)) (fresh refl_t) = None /\
  same_shape (TField 1 TStr (TField 2 TStr TUnit)) (TField 2 TStr (TField 1 TStr TUnit)).
Proof. vm_compute. easy. Qed.
Print Assumptions C69_truncated_refuted. Print Assumptions C69_ids_refuted.
(** C69, what holds: a buffer with further bytes behind the written ones is read as if they were not there. *)
Theorem C69_trailing_partial : forall t v mem c, supported_ty t = true -> has_type t v -> (N.of_nat (u_size t v) < 256 ^ 8)%N -> length mem = u_size t v ->
  exists mem', u_write t v mem = Some mem' /\ u_read t (mem' ++ c) (fresh t) = Some v.
Proof.
  intros t v mem c Hs H Hm Hl. destruct (C38_extent t 0%N v [] mem c Hs H Hm Hl) as [e [L [_ R]]]. destruct (C38_extent t 0%N v [] mem [] Hs H Hm Hl) as [e' [L' [W' R']]].
  cbn [app length] in *. rewrite !app_nil_r in W'. exists e'. unfold u_write, u_read. rewrite W'. split; [easy|].
  unfold u_size in *. rewrite (size_encode t 0%N v H) in *. pose proof (write_spec t 0%N v [] mem [] H Hl) as W. cbn [app length] in W. rewrite !app_nil_r in W. rewrite W in W'. injection W' as <-.
  pose proof (read_spec t 0%N v [] c (fresh t) Hs H (fresh_type t) Hm) as R2. cbn [app length] in R2. rewrite R2. now rewrite overlay_fresh.
Qed.
Print Assumptions C69_trailing_partial.
