From Verif Require Import StatusModel.
From Coq Require Import Lia.
Local Open Scope Z_scope.

Lemma status_eta s : mkStatus (code s) (info s) = s.
Proof. destruct s; reflexivity. Qed.

Lemma st_plus_err a b : isErr a = true -> st_plus a b = a.
Proof. intros H; unfold st_plus; rewrite H; reflexivity. Qed.
Lemma st_plus_noterr a b : isErr b = false -> st_plus a b = a.
Proof. intros H; unfold st_plus; rewrite H, andb_false_r; reflexivity. Qed.
Lemma st_plus_take a b : isErr a = false -> isErr b = true -> st_plus a b = b.
Proof. intros Ha Hb; unfold st_plus; rewrite Ha, Hb; apply status_eta. Qed.

Lemma st_plus_cases a b :
  (isErr a = true /\ st_plus a b = a) \/
  (isErr a = false /\ isErr b = true /\ st_plus a b = b) \/
  (isErr a = false /\ isErr b = false /\ st_plus a b = a).
Proof.
  destruct (isErr a) eqn:Ha; [left; auto using st_plus_err|].
  destruct (isErr b) eqn:Hb; right; [left|right]; repeat split; auto using st_plus_take, st_plus_noterr.
Qed.

Lemma st_plus_isErr a b : isErr (st_plus a b) = isErr a || isErr b.
Proof.
  destruct (st_plus_cases a b) as [[Ha E]|[[Ha [Hb E]]|[Ha [Hb E]]]]; rewrite E, ?Ha, ?Hb; reflexivity.
Qed.

Lemma st_plus_assoc a b c : st_plus (st_plus a b) c = st_plus a (st_plus b c).
Proof.
  destruct (isErr a) eqn:Ha.
  - rewrite (st_plus_err a b Ha), (st_plus_err a c Ha), (st_plus_err a _ Ha); reflexivity.
  - destruct (isErr b) eqn:Hb.
    + rewrite (st_plus_take a b Ha Hb), (st_plus_err b c Hb), (st_plus_take a b Ha Hb); reflexivity.
    + rewrite (st_plus_noterr a b Hb).
      destruct (isErr c) eqn:Hc.
      * rewrite (st_plus_take b c Hb Hc); reflexivity.
      * rewrite (st_plus_noterr b c Hc), (st_plus_noterr a c Hc), (st_plus_noterr a b Hb); reflexivity.
Qed.

Lemma st_sum_err l : forall a, isErr a = true -> st_sum a l = a.
Proof.
  induction l as [|x l IH]; intros a Ha; simpl; [reflexivity|].
  unfold st_sum in *; simpl. rewrite (st_plus_err a x Ha). apply IH; exact Ha.
Qed.

Lemma st_sum_spec l : forall a, isErr a = false ->
  st_sum a l = match find isErr l with Some e => e | None => a end.
Proof.
  induction l as [|x l IH]; intros a Ha; [reflexivity|].
  unfold st_sum; simpl. destruct (isErr x) eqn:Hx.
  - rewrite (st_plus_take a x Ha Hx). apply st_sum_err; exact Hx.
  - rewrite (st_plus_noterr a x Hx). apply IH; exact Ha.
Qed.

Lemma st_sum_isErr l : forall a, isErr (st_sum a l) = isErr a || existsb isErr l.
Proof.
  induction l as [|x l IH]; intros a; simpl; [rewrite orb_false_r; reflexivity|].
  unfold st_sum in *; simpl. rewrite IH, st_plus_isErr, orb_assoc; reflexivity.
Qed.

Lemma st_sum_app a l1 l2 : st_sum a (l1 ++ l2) = st_sum (st_sum a l1) l2.
Proof. unfold st_sum; apply fold_left_app. Qed.

Lemma isErr_code s : isErr s = true <-> code s < 0.
Proof. unfold isErr, STATUS_OK; lia. Qed.
Lemma isErr_false s : isErr s = false <-> 0 <= code s.
Proof. unfold isErr, STATUS_OK; lia. Qed.
Lemma isOK_code s : isOK s = true <-> code s = 0.
Proof. unfold isOK, STATUS_OK; lia. Qed.
Lemma isOK_not_err s : isOK s = true -> isErr s = false.
Proof. unfold isOK, isErr, STATUS_OK; lia. Qed.

Lemma st_copy_code s : code (st_copy s) = code s.
Proof. unfold st_copy; destruct (Z.eqb_spec (code s) (code st_default)); simpl in *; congruence. Qed.
Lemma st_copy_info s : code s <> 0 -> st_copy s = s.
Proof.
  intros H; unfold st_copy; destruct (Z.eqb_spec (code s) (code st_default)) as [E|E];
    [simpl in E; contradiction | apply status_eta].
Qed.
Lemma st_assign_code a b : code (st_assign a b) = code b.
Proof. unfold st_assign; destruct (Z.eqb_spec (code a) (code b)); simpl; congruence. Qed.

Lemma check_status_spec s :
  (check_status s = Continue <-> 0 <= code s) /\
  ((exists t, check_status s = ReturnStatus t) <-> code s < 0 /\ code s <> -996) /\
  ((exists w, check_status s = ThrowExc w) <-> code s = -996).
Proof.
  unfold check_status.
  destruct (isErr s) eqn:He.
  - apply isErr_code in He. destruct (isCrash s) eqn:Hc; unfold isCrash, STATUS_CRASH in Hc.
    + split; [split; [discriminate|lia]|]. split; split.
      * intros [t H]; discriminate.
      * lia.
      * intros _; lia.
      * intros _; eexists; reflexivity.
    + split; [split; [discriminate|lia]|]. split; split.
      * intros _; lia.
      * intros _; eexists; reflexivity.
      * intros [w H]; discriminate.
      * lia.
  - apply isErr_false in He. split; [split; [auto|auto]|]. split; split.
    + intros [t H]; discriminate.
    + lia.
    + intros [w H]; discriminate.
    + lia.
Qed.
