(** C01 — status accumulation. *)
From Verif Require Import StatusModel StatusProofs.
Local Open Scope Z_scope.

(** [first_error l e]: [e] is the first element of [l] with a negative code (independent specification). *)
Definition first_error (l : list status) (e : status) : Prop :=
  exists l1 l2, l = l1 ++ e :: l2 /\ code e < 0 /\ Forall (fun s => 0 <= code s) l1.

Lemma find_first l e : find isErr l = Some e -> first_error l e.
Proof.
  induction l as [|x l IH]; simpl; [discriminate|].
  destruct (isErr x) eqn:Hx; intros H.
  - inversion H; subst. exists [], l. repeat split; [apply isErr_code; exact Hx|constructor].
  - destruct (IH H) as [l1 [l2 [E [Hc Hf]]]]. exists (x :: l1), l2. subst l. repeat split; auto.
    constructor; [apply isErr_false; exact Hx|exact Hf].
Qed.

Lemma c01_sum_lemma : forall init l,
  (code init < 0 -> st_sum init l = init) /\
  (0 <= code init -> forall e, first_error l e -> st_sum init l = e) /\
  (0 <= code init -> Forall (fun s => 0 <= code s) l -> st_sum init l = init).
Proof.
  intros init l. repeat split.
  - intros H. apply st_sum_err, isErr_code; exact H.
  - intros H e [l1 [l2 [E [Hc Hf]]]]. subst l.
    rewrite st_sum_spec by (apply isErr_false; exact H).
    assert (F : find isErr (l1 ++ e :: l2) = Some e).
    { induction Hf as [|x l1 Hx Hf IH]; simpl.
      - rewrite (proj2 (isErr_code e) Hc); reflexivity.
      - rewrite (proj2 (isErr_false x) Hx); exact IH. }
    rewrite F; reflexivity.
  - intros H Hf. rewrite st_sum_spec by (apply isErr_false; exact H).
    assert (F : find isErr l = None).
    { induction Hf as [|x l1 Hx Hf IH]; simpl; [reflexivity|].
      rewrite (proj2 (isErr_false x) Hx); exact IH. }
    rewrite F; reflexivity.
Qed.

(** The sum of any sequence is the first error, or the initial status when there is none. *)
Theorem C01_sum_is_first_error : forall init l,
  (code init < 0 -> st_sum init l = init) /\
  (0 <= code init -> forall e, first_error l e -> st_sum init l = e) /\
  (0 <= code init -> Forall (fun s => 0 <= code s) l -> st_sum init l = init).
Proof. exact c01_sum_lemma. Qed.
Print Assumptions C01_sum_is_first_error.

Theorem C01_plus_assoc : forall a b c, st_plus (st_plus a b) c = st_plus a (st_plus b c).
Proof. exact st_plus_assoc. Qed.
Print Assumptions C01_plus_assoc.

Lemma c01_identity_lemma : forall s,
  (forall o, code o = 0 -> st_plus s o = s) /\
  (forall o, code o = 0 -> st_plus o s = if code s <? 0 then s else o).
Proof.
  intros s; split; intros o Ho.
  - apply st_plus_noterr, isErr_false; rewrite Ho; apply Z.le_refl.
  - change (code s <? 0) with (isErr s). destruct (isErr s) eqn:Hs.
    + apply st_plus_take; [apply isErr_false; rewrite Ho; apply Z.le_refl|exact Hs].
    + apply st_plus_noterr; exact Hs.
Qed.
(** An OK status is a right identity; on the left it keeps errors and absorbs warnings (positive codes). *)
Theorem C01_ok_identity : forall s,
  (forall o, code o = 0 -> st_plus s o = s) /\
  (forall o, code o = 0 -> st_plus o s = if code s <? 0 then s else o).
Proof. exact c01_identity_lemma. Qed.
Print Assumptions C01_ok_identity.

Lemma c01_no_error_lost_lemma : forall init l,
  code (st_sum init l) < 0 <-> code init < 0 \/ Exists (fun s => code s < 0) l.
Proof.
  intros init l. rewrite <- isErr_code, st_sum_isErr, orb_true_iff, isErr_code, existsb_exists, Exists_exists.
  split; (intros [H|[x [Hx H]]]; [left; exact H|right; exists x; split; [exact Hx|apply isErr_code; exact H]]).
Qed.
(** No error is ever lost and none is invented. *)
Theorem C01_no_error_lost : forall init l,
  code (st_sum init l) < 0 <-> code init < 0 \/ Exists (fun s => code s < 0) l.
Proof. exact c01_no_error_lost_lemma. Qed.
Print Assumptions C01_no_error_lost.

(** Copying and assigning always transfer the code, and copying a non-zero status transfers the message. *)
Theorem C52_copy_assign_code_partial : forall a b,
  code (st_copy b) = code b /\ code (st_assign a b) = code b /\ (code b <> 0 -> st_copy b = b).
Proof. exact (fun a b => conj (st_copy_code b) (conj (st_assign_code a b) (st_copy_info b))). Qed.
Print Assumptions C52_copy_assign_code_partial.

(** Assignment does not make the target equal to the source: with equal codes the stale message stays. *)
Theorem C52_assign_copies_refuted : exists a b, code b <> 0 /\ st_assign a b <> b.
Proof.
  exists (st_err "old"%string), (st_err "new"%string). split; [discriminate|]. vm_compute. discriminate.
Qed.
Print Assumptions C52_assign_copies_refuted.

(** The macro CGRAPH_FUNCTION_CHECK_STATUS: continue / return / throw depend on the code only. *)
Theorem C01_check_status : forall s,
  (check_status s = Continue <-> 0 <= code s) /\
  ((exists t, check_status s = ReturnStatus t) <-> code s < 0 /\ code s <> -996) /\
  ((exists w, check_status s = ThrowExc w) <-> code s = -996).
Proof. exact check_status_spec. Qed.
Print Assumptions C01_check_status.

(** What a status is given is what it reports: every code, and the message of every code but OK; three kinds of codes. *)
Theorem C52_set : forall c i,
  (code (st_setInfo c i) = c /\ (c <> 0 -> info (st_setInfo c i) = i) /\ (c = 0 -> info (st_setInfo c i) = EmptyString)) /\
  (code (st_setErrorInfo i) < 0 /\ info (st_setErrorInfo i) = i) /\ (code (st_make c i) = c /\ info (st_make c i) = i) /\ (code (st_err i) < 0 /\ info (st_err i) = i) /\
  (code (st_reset (st_make c i)) = 0 /\ (c <> 0 -> info (st_reset (st_make c i)) = EmptyString)) /\
  (isErr (st_make c i) = true <-> c < 0) /\ (isOK (st_make c i) = true <-> c = 0) /\ isNotErr (st_make c i) = negb (isErr (st_make c i)).
Proof.
  intros c i. unfold st_setInfo, st_setErrorInfo, st_make, st_err, st_reset, isErr, isOK, isNotErr, STATUS_OK, STATUS_ERR. cbn [code info].
  split; [split; [reflexivity|destruct (Z.eqb_spec 0 c); split; congruence]|]. split; [now split|]. split; [now split|]. split; [now split|].
  split; [destruct (Z.eqb_spec c 0); cbn [negb code info]; split; congruence|]. split; [apply Z.ltb_lt|]. split; [apply Z.eqb_eq|]. now rewrite Z.geb_leb, Z.leb_antisym.
Qed.
Print Assumptions C52_set.
Example C52_set_ex : info (st_setInfo 3 "warn"%string) = "warn"%string /\ isErr (st_setInfo 3 "warn"%string) = false.
Proof. now split. Qed.

Example C01_nonvacuous :
  first_error [st_make 0 ""%string; st_make 5 "warn"%string; st_make (-3) "boom"%string; st_err "late"%string]
              (st_make (-3) "boom"%string) /\
  st_sum st_default [st_make 0 ""%string; st_make 5 "warn"%string; st_make (-3) "boom"%string; st_err "late"%string]
    = st_make (-3) "boom"%string.
Proof.
  split; [|vm_compute; reflexivity].
  exists [st_make 0 ""%string; st_make 5 "warn"%string], [st_err "late"%string].
  repeat split; repeat constructor; discriminate.
Qed.
