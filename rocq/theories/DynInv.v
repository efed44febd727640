(** Bag-level invariant of the dynamic engine: all pending operations of all threads (and queued tasks) are seen as
    one multiset of operations. *)
From Verif Require Import GraphModel GraphSpec TopoProofs StaticModel StaticProofs StatusProofs DynModel.
From Coq Require Import Lia.
Local Open Scope nat_scope.

Definition f_tok (e : nat) (o : op) : nat :=
  match o with
  | OProc x _ | OEnq x | OExec x => b2n (Nat.eqb x e)
  | ODecs _ _ (Some x) => b2n (Nat.eqb x e)
  | _ => 0
  end.
Definition f_body (e : nat) (o : op) : nat := match o with OBody x => b2n (Nat.eqb x e) | _ => 0 end.
Definition f_aft (e : nat) (o : op) : nat := match o with OAfter x => b2n (Nat.eqb x e) | _ => 0 end.
Definition f_dec (e : nat) (o : op) : nat := match o with ODecs x (_ :: _) _ => b2n (Nat.eqb x e) | _ => 0 end.
Definition f_tail (e : nat) (o : op) : nat := match o with OTail x => b2n (Nat.eqb x e) | _ => 0 end.

(** number of successful ends of [e] *)
Definition finok (tr : list gevent) (e : nat) : nat :=
  length (filter (fun p => Nat.eqb (fst p) e && negb (isErr (snd p))) (finishes tr)).
Definition noerr (tr : list gevent) : Prop := forall e r, In (GFinish e r) tr -> (0 <= code r)%Z.

Lemma finok_app t1 t2 e : finok (t1 ++ t2) e = finok t1 e + finok t2 e.
Proof. unfold finok. rewrite finishes_app, filter_app, app_length. reflexivity. Qed.
Lemma finok_start t x e : finok (t ++ [GStart x]) e = finok t e.
Proof. rewrite finok_app. cbn. lia. Qed.
Lemma finok_finish t x r e : finok (t ++ [GFinish x r]) e = finok t e + (if Nat.eqb x e && negb (isErr r) then 1 else 0).
Proof. rewrite finok_app. unfold finok. simpl. destruct (Nat.eqb x e && negb (isErr r)); reflexivity. Qed.
Lemma finok_le tr e : finok tr e <= cnt e (map fst (finishes tr)).
Proof.
  unfold finok. induction (finishes tr) as [|[x s] l IH]; simpl; [lia|]. rewrite cnt_cons.
  destruct (Nat.eqb x e); simpl; [|lia]. destruct (isErr s); simpl; lia.
Qed.
Lemma finok_in tr e : 0 < finok tr e -> exists r, In (GFinish e r) tr /\ (0 <= code r)%Z.
Proof.
  unfold finok. intros H. destruct (filter _ (finishes tr)) as [|[x s] l] eqn:E; [simpl in H; lia|].
  assert (Hin : In (x, s) (filter (fun p => Nat.eqb (fst p) e && negb (isErr (snd p))) (finishes tr))) by (rewrite E; left; reflexivity).
  apply filter_In in Hin. destruct Hin as [Hin Hb]. simpl in Hb. apply andb_true_iff in Hb. destruct Hb as [H1 H2].
  apply Nat.eqb_eq in H1. subst x. exists s. split; [apply in_finishes; exact Hin|]. apply isErr_false. destruct (isErr s); [discriminate|reflexivity].
Qed.
Lemma finok_noerr tr e : noerr tr -> finok tr e = cnt e (map fst (finishes tr)).
Proof.
  intros H. unfold finok.
  assert (H2 : forall x s, In (x, s) (finishes tr) -> isErr s = false) by (intros x s Hs; apply isErr_false; apply in_finishes in Hs; eauto).
  induction (finishes tr) as [|[x s] l IH]; simpl; [reflexivity|]. rewrite cnt_cons, (H2 x s) by (left; reflexivity).
  destruct (Nat.eqb x e); simpl; rewrite IH; auto; intros; apply (H2 x0 s0); right; assumption.
Qed.

Lemma starts_fin t x r : starts (t ++ [GFinish x r]) = starts t.
Proof. rewrite starts_app. apply app_nil_r. Qed.
Lemma finishes_st t x : finishes (t ++ [GStart x]) = finishes t.
Proof. rewrite finishes_app. apply app_nil_r. Qed.
Lemma cnt_starts_st t x y : cnt y (starts (t ++ [GStart x])) = cnt y (starts t) + b2n (Nat.eqb x y).
Proof. rewrite starts_app, cnt_app. simpl. rewrite cnt_cons. change (cnt y []) with 0. lia. Qed.
Lemma cnt_finishes_fin t x r y : cnt y (map fst (finishes (t ++ [GFinish x r]))) = cnt y (map fst (finishes t)) + b2n (Nat.eqb x y).
Proof. rewrite finishes_app, map_app, cnt_app. simpl. rewrite cnt_cons. change (cnt y []) with 0. lia. Qed.

Section Inv.
Context (c : dcfg) (Hwf : wf (c_g c)) (Hac : acyclic (c_g c)).
Notation g := (c_g c).

Definition f_pend (d e : nat) (o : op) : nat :=
  match o with
  | OAfter x => b2n (Nat.eqb x d && memb e (succ g d))
  | ODecs x l _ => b2n (Nat.eqb x d && memb e l)
  | _ => 0
  end.
(** dependency [d] not yet accounted for in the counter of [e] *)
Definition und (tr : list gevent) (B : list op) (e d : nat) : nat := (1 - finok tr d) + sumf (f_pend d e) B.
Definition waits (tr : list gevent) (B : list op) (e : nat) : nat := sumf (und tr B e) (dep g e).

Definition wf_op (tr : list gevent) (o : op) : Prop :=
  match o with
  | OProc e _ | OEnq e | OExec e | OBody e | OAfter e => In e (els g)
  | OErr e r => (code r < 0)%Z /\ In (GFinish e r) tr
  | ODecs e l res => In e (els g) /\ incl l (succ g e) /\ NoDup l /\ succ g e <> [] /\ (forall x, res = Some x -> In x (els g))
  | OTail e => In e (ends g)
  | ONotify | OLockNotify => True
  end.

Definition rel (tr : list gevent) (B : list op) (e : nat) : nat := sumf (f_tok e) B + cnt e (starts tr).

Record RI (sh : shared) (B : list op) : Prop := {
  r_once : forall e, rel (sh_tr sh) B e <= 1;
  r_body : forall e, cnt e (starts (sh_tr sh)) = sumf (f_body e) B + cnt e (map fst (finishes (sh_tr sh)));
  r_post : forall e, sumf (f_aft e) B + sumf (f_dec e) B + sumf (f_tail e) B <= finok (sh_tr sh) e;
  r_rel : forall e d, In e (els g) -> In d (dep g e) -> 0 < rel (sh_tr sh) B e ->
          finok (sh_tr sh) d = 1 /\ sumf (f_pend d e) B = 0;
  r_left : forall e, In e (els g) -> rel (sh_tr sh) B e = 0 ->
          (Z.of_nat (waits (sh_tr sh) B e) <= sh_left sh e)%Z /\
          (noerr (sh_tr sh) -> Z.of_nat (waits (sh_tr sh) B e) = sh_left sh e /\ 0 < waits (sh_tr sh) B e);
  r_started : forall e, 0 < cnt e (starts (sh_tr sh)) -> In e (els g) /\ sh_left sh e = left0 g e;
  r_nonneg : forall e, In e (els g) -> (0 <= sh_left sh e)%Z;
  r_wfop : forall o, In o B -> wf_op (sh_tr sh) o;
  r_fin : sh_fin sh + sumf (fun d => sumf (f_tail d) B + sumf (f_aft d) B) (ends g) <= sumf (finok (sh_tr sh)) (ends g) /\
          (noerr (sh_tr sh) -> sh_fin sh + sumf (fun d => sumf (f_tail d) B + sumf (f_aft d) B) (ends g) = sumf (finok (sh_tr sh)) (ends g));
  r_stat : sh_stat sh = st_default \/ ((code (sh_stat sh) < 0)%Z /\ exists e, In (GFinish e (sh_stat sh)) (sh_tr sh));
  r_deps : starts_after_deps g (sh_tr sh);
}.

Lemma RI_perm sh B B' : Permutation B B' -> RI sh B -> RI sh B'.
Proof.
  intros P R.
  assert (S : forall f, sumf f B' = sumf f B) by (intros f; apply sumf_perm; symmetry; exact P).
  assert (Hrel : forall e, rel (sh_tr sh) B' e = rel (sh_tr sh) B e) by (intros e; unfold rel; rewrite S; reflexivity).
  assert (Hw : forall e, waits (sh_tr sh) B' e = waits (sh_tr sh) B e).
  { intros e. unfold waits. apply sumf_ext. intros d _. unfold und. rewrite S. reflexivity. }
  assert (Hf : sumf (fun d => sumf (f_tail d) B' + sumf (f_aft d) B') (ends g) = sumf (fun d => sumf (f_tail d) B + sumf (f_aft d) B) (ends g)).
  { apply sumf_ext. intros d _. rewrite !S. reflexivity. }
  destruct R. constructor; try assumption.
  - intros e. rewrite Hrel. auto.
  - intros e. rewrite S. auto.
  - intros e. rewrite !S. auto.
  - intros e d. rewrite Hrel, S. auto.
  - intros e. rewrite Hrel, Hw. auto.
  - intros o Ho. apply r_wfop0. eapply Permutation_in; [symmetry; exact P|exact Ho].
  - rewrite Hf. assumption.
Qed.

Lemma started_le1 sh B e : RI sh B -> cnt e (starts (sh_tr sh)) <= 1.
Proof. intros R. pose proof (r_once _ _ R e). unfold rel in H. lia. Qed.
Lemma finok_le1 sh B e : RI sh B -> finok (sh_tr sh) e <= 1.
Proof. intros R. pose proof (started_le1 sh B e R). pose proof (r_body _ _ R e). pose proof (finok_le (sh_tr sh) e). lia. Qed.
Lemma pend_le_post d e B : sumf (f_pend d e) B <= sumf (f_aft d) B + sumf (f_dec d) B.
Proof.
  induction B as [|o B IH]; simpl; [lia|].
  destruct o as [x a|x|x|x|x r| |x|x l res|x|]; simpl; try lia.
  - destruct (Nat.eqb x d); simpl; [|lia]. destruct (memb e (succ g d)); simpl; lia.
  - destruct l as [|y l]; [rewrite andb_false_r; simpl; lia|]. destruct (Nat.eqb x d); cbn [andb b2n]; [|lia]. destruct (memb e (y :: l)); simpl; lia.
Qed.
Lemma noerr_stat sh B : RI sh B -> noerr (sh_tr sh) -> isErr (sh_stat sh) = false.
Proof.
  intros R H. destruct (r_stat _ _ R) as [E|[E [e He]]]; [rewrite E; reflexivity|]. apply H in He. lia.
Qed.
(** A pending delivery to [e] means [e] is not released yet. *)
Lemma pend_not_rel sh B d e : RI sh B -> In e (els g) -> In d (dep g e) -> 0 < sumf (f_pend d e) B -> rel (sh_tr sh) B e = 0.
Proof.
  intros R He Hd Hp. destruct (rel (sh_tr sh) B e) eqn:E; [reflexivity|exfalso].
  destruct (r_rel _ _ R e d He Hd) as [_ H]; lia.
Qed.

Lemma succ_in_els d x : In d (els g) -> In x (succ g d) -> In x (els g) /\ In d (dep g x).
Proof.
  intros Hd Hx. assert (Hxe : In x (els g)) by (apply (wf_succ g Hwf d Hd); exact Hx).
  split; [exact Hxe|]. apply (wf_sym g Hwf); assumption.
Qed.
Lemma dep_single x d : In x (els g) -> In d (dep g x) -> length (dep g x) = 1 -> dep g x = [d].
Proof.
  intros Hx Hd Hl. destruct (dep g x) as [|a [|b l]]; simpl in Hl; try lia. destruct Hd as [->|[]]. reflexivity.
Qed.

(** ** Preservation by each operation *)
Lemma noerr_start t x : noerr (t ++ [GStart x]) <-> noerr t.
Proof.
  unfold noerr. split; intros H e r Hin.
  - apply (H e r), in_or_app; auto.
  - apply in_app_or in Hin. destruct Hin as [Hin|[Hin|[]]]; [eauto|discriminate].
Qed.
Lemma noerr_finish t x r : noerr (t ++ [GFinish x r]) <-> noerr t /\ (0 <= code r)%Z.
Proof.
  unfold noerr. split.
  - intros H. split; [intros e r0 Hin; apply (H e r0), in_or_app; auto|]. apply (H x r), in_or_app; right; left; reflexivity.
  - intros [H Hr] e r0 Hin. apply in_app_or in Hin. destruct Hin as [Hin|[Hin|[]]]; [eauto|]. inversion Hin; subst; exact Hr.
Qed.

Lemma wf_op_mono tr ev o : wf_op tr o -> wf_op (tr ++ [ev]) o.
Proof. destruct o; simpl; auto. intros [H1 H2]. split; [exact H1|apply in_or_app; auto]. Qed.

(** Replacing an operation by others with the same weights. *)
Lemma RI_same sh o new B :
  (forall e, sumf (f_tok e) new = f_tok e o) -> (forall e, sumf (f_body e) new = f_body e o) ->
  (forall e, sumf (f_aft e) new + sumf (f_dec e) new <= f_aft e o + f_dec e o) ->
  (forall e, In e (ends g) -> sumf (f_aft e) new = f_aft e o) ->
  (forall e, sumf (f_tail e) new = f_tail e o) -> (forall d e, sumf (f_pend d e) new = f_pend d e o) ->
  (forall o', In o' new -> wf_op (sh_tr sh) o') ->
  RI sh (o :: B) -> RI sh (new ++ B).
Proof.
  intros H1 H2 H3 H3' H4 H5 Hw R.
  assert (Hrel : forall e, rel (sh_tr sh) (new ++ B) e = rel (sh_tr sh) (o :: B) e) by (intros e; unfold rel; rewrite sumf_app; simpl; rewrite H1; lia).
  assert (Hwt : forall e, waits (sh_tr sh) (new ++ B) e = waits (sh_tr sh) (o :: B) e).
  { intros e. unfold waits. apply sumf_ext. intros d _. unfold und. rewrite sumf_app. simpl. rewrite H5. reflexivity. }
  assert (Hf : sumf (fun d => sumf (f_tail d) (new ++ B) + sumf (f_aft d) (new ++ B)) (ends g) = sumf (fun d => sumf (f_tail d) (o :: B) + sumf (f_aft d) (o :: B)) (ends g)).
  { apply sumf_ext. intros d Hd. rewrite !sumf_app. simpl. specialize (H4 d). specialize (H3' d Hd). lia. }
  destruct R. constructor; try assumption.
  - intros e. rewrite Hrel. auto.
  - intros e. rewrite sumf_app, H2. specialize (r_body0 e). simpl in *. lia.
  - intros e. rewrite !sumf_app. specialize (r_post0 e). simpl in r_post0. specialize (H3 e). specialize (H4 e). lia.
  - intros e d. rewrite Hrel, sumf_app, H5. intros A1 A2 A3. specialize (r_rel0 e d A1 A2 A3). simpl in r_rel0. lia.
  - intros e. rewrite Hrel, Hwt. auto.
  - intros o' Ho'. apply in_app_or in Ho'. destruct Ho' as [Ho'|Ho']; [auto|]. apply r_wfop0; right; exact Ho'.
  - rewrite Hf. assumption.
Qed.

(** Dropping an operation (an action skipped because an error is recorded). *)
Lemma RI_drop sh o B : isErr (sh_stat sh) = true -> (forall e, f_body e o = 0) -> RI sh (o :: B) -> RI sh B.
Proof.
  intros He H2 R.
  assert (Hne : ~ noerr (sh_tr sh)) by (intros H; apply (noerr_stat _ _ R) in H; congruence).
  assert (Hrel : forall e, rel (sh_tr sh) B e + f_tok e o = rel (sh_tr sh) (o :: B) e) by (intros e; unfold rel; simpl; lia).
  assert (Hwt : forall e, waits (sh_tr sh) B e <= waits (sh_tr sh) (o :: B) e).
  { intros e. unfold waits. apply sumf_le. intros d _. unfold und. simpl. lia. }
  assert (Hf : sumf (fun d => sumf (f_tail d) B + sumf (f_aft d) B) (ends g) <= sumf (fun d => sumf (f_tail d) (o :: B) + sumf (f_aft d) (o :: B)) (ends g)).
  { apply sumf_le. intros d _. simpl. lia. }
  pose proof R as R0. destruct R. constructor; try assumption.
  - intros e. specialize (r_once0 e). specialize (Hrel e). lia.
  - intros e. specialize (r_body0 e). simpl in r_body0. rewrite H2 in r_body0. exact r_body0.
  - intros e. specialize (r_post0 e). simpl in *. lia.
  - intros e d A1 A2 A3. specialize (Hrel e). assert (A4 : 0 < rel (sh_tr sh) (o :: B) e) by lia.
    specialize (r_rel0 e d A1 A2 A4). simpl in r_rel0. lia.
  - intros e A1 A2. split; [|contradiction]. specialize (Hwt e).
    destruct (Nat.eq_dec (rel (sh_tr sh) (o :: B) e) 0) as [Z0|Z0].
    + destruct (r_left0 e A1 Z0) as [L _]. lia.
    + assert (Hz : waits (sh_tr sh) B e = 0).
      { unfold waits. apply sumf_zero. intros d Hd. unfold und. destruct (r_rel0 e d A1 Hd) as [F1 F2]; [lia|]. simpl in F2. lia. }
      rewrite Hz. apply r_nonneg0; exact A1.
  - intros o' Ho'. apply r_wfop0; right; exact Ho'.
  - split; [|contradiction]. destruct r_fin0 as [F _]. lia.
Qed.

Lemma RI_exec sh e B : RI sh (OExec e :: B) ->
  RI (mkSh (upd (sh_left sh) e (left0 g e)) (sh_fin sh) (sh_stat sh) (sh_tr sh ++ [GStart e])) (OBody e :: B).
Proof.
  intros R.
  assert (He : In e (els g)) by (apply (r_wfop _ _ R (OExec e)); left; reflexivity).
  assert (Hrel : forall x, rel (sh_tr sh ++ [GStart e]) (OBody e :: B) x = rel (sh_tr sh) (OExec e :: B) x).
  { intros x. unfold rel. rewrite cnt_starts_st. simpl. lia. }
  assert (Hre : 0 < rel (sh_tr sh) (OExec e :: B) e) by (unfold rel; simpl; rewrite Nat.eqb_refl; simpl; lia).
  assert (Hwt : forall x, waits (sh_tr sh ++ [GStart e]) (OBody e :: B) x = waits (sh_tr sh) (OExec e :: B) x).
  { intros x. unfold waits. apply sumf_ext. intros d _. unfold und. rewrite finok_start. simpl. reflexivity. }
  assert (Hdeps : forall d, In d (dep g e) -> exists r, In (GFinish d r) (sh_tr sh) /\ (0 <= code r)%Z).
  { intros d Hd. apply finok_in. destruct (r_rel _ _ R e d He Hd Hre). lia. }
  assert (Hs0 : cnt e (starts (sh_tr sh)) = 0).
  { pose proof (r_once _ _ R e) as H. unfold rel in H. simpl in H. rewrite Nat.eqb_refl in H. simpl in H. lia. }
  destruct R. constructor; cbn [sh_left sh_fin sh_stat sh_tr].
  - intros x. rewrite Hrel. auto.
  - intros x. rewrite cnt_starts_st, finishes_st.
    specialize (r_body0 x). simpl in *. lia.
  - intros x. rewrite finok_start. specialize (r_post0 x). simpl in *. lia.
  - intros x d. rewrite Hrel, finok_start. intros A1 A2 A3. specialize (r_rel0 x d A1 A2 A3). simpl in *. lia.
  - intros x. rewrite Hrel, Hwt, noerr_start. intros A1 A2. rewrite upd_other; [auto|]. intros ->. lia.
  - intros x. rewrite cnt_starts_st. intros A.
    destruct (Nat.eq_dec x e) as [->|Hne]; [split; [exact He|apply upd_same]|].
    rewrite upd_other by assumption. apply r_started0. destruct (Nat.eqb_spec e x); [congruence|]. simpl in A. lia.
  - intros x Hx. destruct (Nat.eq_dec x e) as [->|Hne]; [rewrite upd_same; unfold left0; lia|rewrite upd_other by assumption; auto].
  - intros o [<-|Ho]; [exact He|]. apply wf_op_mono, r_wfop0. right; exact Ho.
  - rewrite noerr_start. assert (E : sumf (finok (sh_tr sh ++ [GStart e])) (ends g) = sumf (finok (sh_tr sh)) (ends g)) by (apply sumf_ext; intros; apply finok_start).
    rewrite E. simpl in *. exact r_fin0.
  - destruct r_stat0 as [E|[E [x Hx]]]; [auto|]. right. split; [exact E|]. exists x. apply in_or_app; auto.
  - apply starts_after_deps_snoc; [assumption|]. intros x Ex. inversion Ex; subst. exact Hdeps.
Qed.

Lemma RI_finish_err sh e r B : (code r < 0)%Z -> RI sh (OBody e :: B) ->
  RI (mkSh (sh_left sh) (sh_fin sh) (sh_stat sh) (sh_tr sh ++ [GFinish e r])) (OErr e r :: ONotify :: B).
Proof.
  intros Hr R.
  assert (Hr2 : isErr r = true) by (apply isErr_code; exact Hr).
  assert (Hfo : forall x, finok (sh_tr sh ++ [GFinish e r]) x = finok (sh_tr sh) x).
  { intros x. rewrite finok_finish, Hr2. simpl. rewrite andb_false_r. lia. }
  assert (Hrel : forall x, rel (sh_tr sh ++ [GFinish e r]) (OErr e r :: ONotify :: B) x = rel (sh_tr sh) (OBody e :: B) x).
  { intros x. unfold rel. rewrite starts_fin. reflexivity. }
  assert (Hwt : forall x, waits (sh_tr sh ++ [GFinish e r]) (OErr e r :: ONotify :: B) x = waits (sh_tr sh) (OBody e :: B) x).
  { intros x. unfold waits. apply sumf_ext. intros d _. unfold und. rewrite Hfo. simpl. reflexivity. }
  assert (Hne : ~ noerr (sh_tr sh ++ [GFinish e r])) by (rewrite noerr_finish; lia).
  destruct R. constructor; cbn [sh_left sh_fin sh_stat sh_tr].
  - intros x. rewrite Hrel. auto.
  - intros x. rewrite starts_fin, cnt_finishes_fin.
    specialize (r_body0 x). simpl in *. lia.
  - intros x. rewrite Hfo. specialize (r_post0 x). simpl in *. lia.
  - intros x d. rewrite Hrel, Hfo. intros A1 A2 A3. specialize (r_rel0 x d A1 A2 A3). simpl in *. lia.
  - intros x. rewrite Hrel, Hwt. intros A1 A2. split; [apply r_left0; assumption|contradiction].
  - intros x. rewrite starts_fin. auto.
  - assumption.
  - intros o [<-|[<-|Ho]]; [simpl; split; [exact Hr|apply in_or_app; right; left; reflexivity]|exact I|].
    apply wf_op_mono, r_wfop0. right; exact Ho.
  - split; [|contradiction]. assert (E : sumf (finok (sh_tr sh ++ [GFinish e r])) (ends g) = sumf (finok (sh_tr sh)) (ends g)) by (apply sumf_ext; intros; apply Hfo).
    rewrite E. simpl in *. apply r_fin0.
  - destruct r_stat0 as [E|[E [x Hx]]]; [auto|]. right. split; [exact E|]. exists x. apply in_or_app; auto.
  - apply starts_after_deps_snoc; [assumption|discriminate].
Qed.

Lemma ends_in e : In e (ends g) <-> In e (els g) /\ succ g e = [].
Proof. unfold ends. rewrite filter_In. destruct (succ g e); simpl; intuition congruence. Qed.
Lemma ends_nodup : NoDup (ends g).
Proof. apply NoDup_filter, Hwf. Qed.
Lemma sumf_indicator (x : nat) l : NoDup l -> sumf (fun d => b2n (Nat.eqb x d)) l = b2n (memb x l).
Proof.
  induction l as [|a l IH]; simpl; intros Hnd; [reflexivity|]. inversion Hnd; subst. rewrite IH by assumption.
  destruct (Nat.eqb_spec x a); simpl; [|reflexivity].
  subst. assert (M : memb a l = false) by (apply memb_false; assumption). unfold memb in *. rewrite M. reflexivity.
Qed.

Lemma RI_finish_ok sh e r B : (0 <= code r)%Z -> RI sh (OBody e :: B) ->
  RI (mkSh (sh_left sh) (sh_fin sh) (sh_stat sh) (sh_tr sh ++ [GFinish e r])) (OAfter e :: B).
Proof.
  intros Hr R.
  assert (Hr2 : isErr r = false) by (apply isErr_false; exact Hr).
  assert (He : In e (els g)) by (apply (r_wfop _ _ R (OBody e)); left; reflexivity).
  assert (Hfo : forall x, finok (sh_tr sh ++ [GFinish e r]) x = finok (sh_tr sh) x + b2n (Nat.eqb e x)).
  { intros x. rewrite finok_finish, Hr2. simpl. rewrite andb_true_r. destruct (Nat.eqb e x); reflexivity. }
  assert (Hf0 : finok (sh_tr sh) e = 0).
  { pose proof (r_body _ _ R e) as H. simpl in H. rewrite Nat.eqb_refl in H. simpl in H. pose proof (started_le1 _ _ e R). pose proof (finok_le (sh_tr sh) e). lia. }
  assert (Hpost : sumf (f_aft e) B + sumf (f_dec e) B + sumf (f_tail e) B = 0).
  { pose proof (r_post _ _ R e) as H. simpl in H. lia. }
  assert (Hp0 : forall x, sumf (f_pend e x) B = 0) by (intros x; pose proof (pend_le_post e x B); lia).
  assert (Hrel : forall x, rel (sh_tr sh ++ [GFinish e r]) (OAfter e :: B) x = rel (sh_tr sh) (OBody e :: B) x).
  { intros x. unfold rel. rewrite starts_fin. reflexivity. }
  assert (Hund : forall x d, In x (els g) -> In d (dep g x) -> und (sh_tr sh ++ [GFinish e r]) (OAfter e :: B) x d = und (sh_tr sh) (OBody e :: B) x d).
  { intros x d Hx Hd. unfold und. rewrite Hfo. cbn [sumf f_pend]. destruct (Nat.eqb_spec e d) as [->|Hne]; cbn [b2n andb]; [|lia].
    rewrite Hf0, Hp0. assert (Hxs : In x (succ g d)) by (apply (wf_sym g Hwf); assumption).
    apply memb_in in Hxs. rewrite Hxs. cbn [b2n]. lia. }
  assert (Hwt : forall x, In x (els g) -> waits (sh_tr sh ++ [GFinish e r]) (OAfter e :: B) x = waits (sh_tr sh) (OBody e :: B) x).
  { intros x Hx. unfold waits. apply sumf_ext. intros d Hd. apply Hund; assumption. }
  destruct R. constructor; cbn [sh_left sh_fin sh_stat sh_tr].
  - intros x. rewrite Hrel. auto.
  - intros x. rewrite starts_fin, cnt_finishes_fin.
    specialize (r_body0 x). simpl in *. lia.
  - intros x. rewrite Hfo. specialize (r_post0 x). simpl in *. lia.
  - intros x d. rewrite Hrel, Hfo. intros A1 A2 A3. specialize (r_rel0 x d A1 A2 A3). simpl in *.
    destruct (Nat.eqb_spec e d) as [->|Hne]; simpl; lia.
  - intros x. rewrite Hrel. intros A1 A2. rewrite Hwt, noerr_finish by assumption. destruct (r_left0 x A1 A2) as [L1 L2]. split; [exact L1|]. intros [H _]; auto.
  - intros x. rewrite starts_fin. auto.
  - assumption.
  - intros o [<-|Ho]; [exact He|]. apply wf_op_mono, r_wfop0. right; exact Ho.
  - rewrite noerr_finish.
    assert (E : sumf (finok (sh_tr sh ++ [GFinish e r])) (ends g) = sumf (finok (sh_tr sh)) (ends g) + b2n (memb e (ends g))).
    { rewrite <- (sumf_indicator e (ends g) ends_nodup), <- sumf_plus. apply sumf_ext. intros; apply Hfo. }
    assert (E2 : sumf (fun d => sumf (f_tail d) (OAfter e :: B) + sumf (f_aft d) (OAfter e :: B)) (ends g) =
                 sumf (fun d => sumf (f_tail d) (OBody e :: B) + sumf (f_aft d) (OBody e :: B)) (ends g) + b2n (memb e (ends g))).
    { rewrite <- (sumf_indicator e (ends g) ends_nodup), <- sumf_plus. apply sumf_ext. intros; simpl; lia. }
    rewrite E, E2. destruct r_fin0 as [F1 F2]. split; [lia|]. intros [H _]. specialize (F2 H). lia.
  - destruct r_stat0 as [E|[E [x Hx]]]; [auto|]. right. split; [exact E|]. exists x. apply in_or_app; auto.
  - apply starts_after_deps_snoc; [assumption|discriminate].
Qed.

Lemma RI_err sh e r B : RI sh (OErr e r :: B) ->
  RI (mkSh (sh_left sh) (sh_fin sh) (st_plus (sh_stat sh) r) (sh_tr sh)) B.
Proof.
  intros R. pose proof (r_wfop _ _ R (OErr e r) (or_introl eq_refl)) as [Hr Hin].
  destruct R. constructor; cbn [sh_left sh_fin sh_stat sh_tr]; try assumption.
  - intros o Ho. apply r_wfop0; right; exact Ho.
  - destruct r_stat0 as [E|[E [x Hx]]].
    + rewrite E, st_plus_take; [|reflexivity|apply isErr_code; exact Hr]. right. eauto.
    + rewrite st_plus_err by (apply isErr_code; exact E). right. eauto.
Qed.

(** Delivery: [e] tells successor [x] that it finished. *)
Lemma RI_tail sh e B : RI sh (OTail e :: B) ->
  RI (mkSh (sh_left sh) (S (sh_fin sh)) (sh_stat sh) (sh_tr sh)) B.
Proof.
  intros R. pose proof (r_wfop _ _ R (OTail e) (or_introl eq_refl)) as He. simpl in He.
  assert (E2 : sumf (fun d => sumf (f_tail d) (OTail e :: B) + sumf (f_aft d) (OTail e :: B)) (ends g) =
               sumf (fun d => sumf (f_tail d) B + sumf (f_aft d) B) (ends g) + 1).
  { assert (M : b2n (memb e (ends g)) = 1) by (rewrite (proj2 (memb_in _ _) He); reflexivity).
    rewrite <- M, <- (sumf_indicator e (ends g) ends_nodup), <- sumf_plus. apply sumf_ext. intros; simpl; lia. }
  destruct R. constructor; cbn [sh_left sh_fin sh_stat sh_tr]; try assumption.
  - intros x. specialize (r_post0 x). simpl in *. lia.
  - intros o Ho. apply r_wfop0; right; exact Ho.
  - rewrite E2 in r_fin0. destruct r_fin0 as [F1 F2]. split; [lia|]. intros H; specialize (F2 H); lia.
Qed.

Lemma wf_op_notify tr o : o = ONotify \/ o = OLockNotify -> wf_op tr o.
Proof. intros [->| ->]; exact I. Qed.

(** Immediate release of all successors (LINKABLE and ROOT shapes). *)
Lemma RI_release sh e ops B :
  RI sh (OAfter e :: B) -> succ g e <> [] ->
  (forall x, In x (succ g e) -> length (dep g x) = 1) ->
  (forall x, sumf (f_tok x) ops = b2n (memb x (succ g e))) ->
  (forall o, In o ops -> exists x a, o = OProc x a /\ In x (succ g e)) ->
  RI sh (ops ++ B).
Proof.
  intros R Hne H1 Htok Hops.
  pose proof (r_wfop _ _ R (OAfter e) (or_introl eq_refl)) as He. simpl in He.
  assert (Hz : forall f, (forall x a, f (OProc x a) = 0) -> sumf f ops = 0).
  { intros f Hf. apply sumf_zero. intros o Ho. destruct (Hops o Ho) as [x [a [-> _]]]. apply Hf. }
  assert (Zb : forall x, sumf (f_body x) ops = 0) by (intros; apply Hz; reflexivity).
  assert (Za : forall x, sumf (f_aft x) ops = 0) by (intros; apply Hz; reflexivity).
  assert (Zd : forall x, sumf (f_dec x) ops = 0) by (intros; apply Hz; reflexivity).
  assert (Zt : forall x, sumf (f_tail x) ops = 0) by (intros; apply Hz; reflexivity).
  assert (Zp : forall d x, sumf (f_pend d x) ops = 0) by (intros; apply Hz; reflexivity).
  assert (Hpost : sumf (f_aft e) B + sumf (f_dec e) B + sumf (f_tail e) B = 0 /\ finok (sh_tr sh) e = 1).
  { pose proof (r_post _ _ R e) as H. simpl in H. rewrite Nat.eqb_refl in H. simpl in H. pose proof (finok_le1 _ _ e R). lia. }
  destruct Hpost as [Hpost Hfe].
  assert (Hp0 : forall x, sumf (f_pend e x) B = 0) by (intros x; pose proof (pend_le_post e x B); lia).
  assert (Hrel0 : forall x, In x (succ g e) -> rel (sh_tr sh) (OAfter e :: B) x = 0).
  { intros x Hx. destruct (succ_in_els e x He Hx) as [Hxe Hd]. apply (pend_not_rel sh _ e x R Hxe Hd).
    simpl. rewrite Nat.eqb_refl, (proj2 (memb_in _ _) Hx). simpl. lia. }
  assert (Hrel : forall x, rel (sh_tr sh) (ops ++ B) x = rel (sh_tr sh) (OAfter e :: B) x + b2n (memb x (succ g e))).
  { intros x. unfold rel. rewrite sumf_app, Htok. simpl. lia. }
  assert (Hpend : forall d x, sumf (f_pend d x) (ops ++ B) + b2n (Nat.eqb e d && memb x (succ g d)) = sumf (f_pend d x) (OAfter e :: B)).
  { intros d x. rewrite sumf_app, Zp. simpl. lia. }
  assert (Hdep1 : forall x, In x (succ g e) -> dep g x = [e]).
  { intros x Hx. destruct (succ_in_els e x He Hx) as [Hxe Hd]. apply dep_single; auto. }
  assert (Hwt : forall x, In x (els g) -> ~ In x (succ g e) -> waits (sh_tr sh) (ops ++ B) x = waits (sh_tr sh) (OAfter e :: B) x).
  { intros x Hx Hn. unfold waits. apply sumf_ext. intros d Hd. unfold und. specialize (Hpend d x).
    destruct (Nat.eqb_spec e d) as [->|_]; cbn [andb b2n] in Hpend; [|lia].
    apply memb_false in Hn. rewrite Hn in Hpend. cbn [andb b2n] in Hpend. lia. }
  destruct R. constructor; try assumption.
  - intros x. rewrite Hrel. destruct (memb x (succ g e)) eqn:M; simpl.
    + apply memb_in in M. rewrite (Hrel0 x M). lia.
    + specialize (r_once0 x). lia.
  - intros x. rewrite sumf_app, Zb. specialize (r_body0 x). simpl in r_body0. exact r_body0.
  - intros x. rewrite !sumf_app, Za, Zd, Zt. specialize (r_post0 x). simpl in *. lia.
  - intros x d A1 A2 A3. rewrite Hrel in A3. destruct (memb x (succ g e)) eqn:M.
    + apply memb_in in M. rewrite (Hdep1 x M) in A2. destruct A2 as [<-|[]]. split; [exact Hfe|].
      specialize (Hpend e x). rewrite sumf_app, Zp, Hp0. reflexivity.
    + simpl in A3. assert (A4 : 0 < rel (sh_tr sh) (OAfter e :: B) x) by lia. destruct (r_rel0 x d A1 A2 A4) as [F1 F2].
      specialize (Hpend d x). lia.
  - intros x A1 A2. rewrite Hrel in A2. destruct (memb x (succ g e)) eqn:M; [simpl in A2; lia|]. simpl in A2.
    apply memb_false in M. rewrite Hwt by assumption. apply r_left0; [assumption|lia].
  - intros o Ho. apply in_app_or in Ho. destruct Ho as [Ho|Ho].
    + destruct (Hops o Ho) as [x [a [-> Hx]]]. simpl. apply (succ_in_els e x He Hx).
    + apply r_wfop0; right; exact Ho.
  - assert (E2 : sumf (fun d => sumf (f_tail d) (ops ++ B) + sumf (f_aft d) (ops ++ B)) (ends g) =
                 sumf (fun d => sumf (f_tail d) (OAfter e :: B) + sumf (f_aft d) (OAfter e :: B)) (ends g)).
    { apply sumf_ext. intros d Hd. rewrite !sumf_app, Zt, Za. simpl.
      destruct (Nat.eqb_spec e d) as [->|_]; [|reflexivity]. apply ends_in in Hd. destruct Hd; contradiction. }
    rewrite E2. assumption.
Qed.

(** One decrement of the successor loop. *)
Lemma RI_dec sh e x l res new B :
  RI sh (ODecs e (x :: l) res :: B) ->
  let v := (sh_left sh x - 1)%Z in
  new = (if (v =? 0)%Z then match res with Some y => [OProc x false; ODecs e l (Some y)] | None => [ODecs e l (Some x)] end
         else [ODecs e l res]) ->
  RI (mkSh (upd (sh_left sh) x v) (sh_fin sh) (sh_stat sh) (sh_tr sh)) (new ++ B).
Proof.
  intros R v Hnew.
  pose proof (r_wfop _ _ R (ODecs e (x :: l) res) (or_introl eq_refl)) as [He [Hincl [Hnd [Hsne Hres]]]].
  assert (Hxs : In x (succ g e)) by (apply Hincl; left; reflexivity).
  destruct (succ_in_els e x He Hxs) as [Hxe Hxd].
  inversion Hnd as [|? ? Hxl Hndl]; subst x0 l0.
  assert (Hpost : sumf (f_aft e) B + sumf (f_dec e) B + sumf (f_tail e) B = 0 /\ finok (sh_tr sh) e = 1).
  { pose proof (r_post _ _ R e) as H. simpl in H. rewrite Nat.eqb_refl in H. simpl in H. pose proof (finok_le1 _ _ e R). lia. }
  destruct Hpost as [Hpost Hfe].
  assert (Hp0 : forall y, sumf (f_pend e y) B = 0) by (intros y; pose proof (pend_le_post e y B); lia).
  assert (Hrelx : rel (sh_tr sh) (ODecs e (x :: l) res :: B) x = 0).
  { apply (pend_not_rel sh _ e x R Hxe Hxd). simpl. rewrite Nat.eqb_refl. simpl. rewrite Nat.eqb_refl. simpl. lia. }
  (* weights of the new operations *)
  assert (Htok : forall y, sumf (f_tok y) new = f_tok y (ODecs e (x :: l) res) + b2n (Nat.eqb x y && (v =? 0)%Z)).
  { intros y. rewrite Hnew. destruct (v =? 0)%Z; destruct res; simpl; rewrite ?andb_true_r, ?andb_false_r; simpl; lia. }
  assert (Hb : forall y, sumf (f_body y) new = 0) by (intros y; rewrite Hnew; destruct (v =? 0)%Z; destruct res; simpl; lia).
  assert (Ha : forall y, sumf (f_aft y) new = 0) by (intros y; rewrite Hnew; destruct (v =? 0)%Z; destruct res; simpl; lia).
  assert (Ht : forall y, sumf (f_tail y) new = 0) by (intros y; rewrite Hnew; destruct (v =? 0)%Z; destruct res; simpl; lia).
  assert (Hd : forall y, sumf (f_dec y) new <= b2n (Nat.eqb e y)) by (intros y; rewrite Hnew; destruct (v =? 0)%Z; destruct res; destruct l; simpl; lia).
  assert (Hp : forall d y, sumf (f_pend d y) new = b2n (Nat.eqb e d && memb y l)) by (intros d y; rewrite Hnew; destruct (v =? 0)%Z; destruct res; simpl; lia).
  assert (Hrel : forall y, rel (sh_tr sh) (new ++ B) y = rel (sh_tr sh) (ODecs e (x :: l) res :: B) y + b2n (Nat.eqb x y && (v =? 0)%Z)).
  { intros y. unfold rel. rewrite sumf_app, Htok. simpl. lia. }
  assert (Hpend : forall d y, sumf (f_pend d y) (new ++ B) + b2n (Nat.eqb e d && Nat.eqb x y) = sumf (f_pend d y) (ODecs e (x :: l) res :: B)).
  { intros d y. rewrite sumf_app, Hp. cbn [sumf f_pend]. destruct (Nat.eqb e d); simpl; [|lia].
    rewrite (Nat.eqb_sym x y). destruct (Nat.eqb_spec y x) as [->|_]; simpl; [|lia].
    apply memb_false in Hxl. unfold memb in Hxl. fold (memb x l). rewrite (Hxl : memb x l = false). simpl. lia. }
  assert (Hwt : forall y, y <> x -> waits (sh_tr sh) (new ++ B) y = waits (sh_tr sh) (ODecs e (x :: l) res :: B) y).
  { intros y Hne. unfold waits. apply sumf_ext. intros d _. unfold und. specialize (Hpend d y).
    destruct (Nat.eqb_spec x y); [congruence|]. rewrite andb_false_r in Hpend. cbn [andb b2n] in Hpend. lia. }
  assert (Hwx : waits (sh_tr sh) (new ++ B) x + 1 = waits (sh_tr sh) (ODecs e (x :: l) res :: B) x).
  { unfold waits.
    assert (Hch : sumf (und (sh_tr sh) (new ++ B) x) (dep g x) + und (sh_tr sh) (ODecs e (x :: l) res :: B) x e =
                  sumf (und (sh_tr sh) (ODecs e (x :: l) res :: B) x) (dep g x) + und (sh_tr sh) (new ++ B) x e).
    { apply sumf_change; [apply (wf_dep g Hwf x Hxe)|exact Hxd|]. intros d _ Hne. unfold und. specialize (Hpend d x).
      destruct (Nat.eqb_spec e d); [congruence|]. cbn [andb b2n] in Hpend. lia. }
    unfold und in Hch at 2 4. pose proof (Hpend e x) as Hpx. rewrite !Nat.eqb_refl in Hpx. simpl in Hpx. simpl in Hch. lia. }
  destruct (r_left _ _ R x Hxe Hrelx) as [Hlx Hlx2].
  destruct R. constructor; cbn [sh_left sh_fin sh_stat sh_tr]; try assumption.
  - intros y. rewrite Hrel. destruct (Nat.eqb_spec x y) as [<-|_]; [rewrite Hrelx; destruct (v =? 0)%Z; simpl; lia|]. simpl. specialize (r_once0 y). lia.
  - intros y. rewrite sumf_app, Hb. specialize (r_body0 y). simpl in r_body0. exact r_body0.
  - intros y. rewrite !sumf_app, Ha, Ht. specialize (Hd y). specialize (r_post0 y). simpl in *. lia.
  - intros y d A1 A2 A3. rewrite Hrel in A3. destruct (Nat.eqb_spec x y) as [<-|Hne].
    + rewrite Hrelx in A3. destruct (v =? 0)%Z eqn:Ev; [|simpl in A3; lia].
      assert (Hz : waits (sh_tr sh) (new ++ B) x = 0) by (unfold v in Ev; lia).
      unfold waits in Hz. pose proof (sumf_in (und (sh_tr sh) (new ++ B) x) _ d A2) as Hu. unfold und in Hu at 1.
      assert (finok (sh_tr sh) d <= 1).
      { pose proof (r_once0 d) as G1. pose proof (r_body0 d) as G2. pose proof (finok_le (sh_tr sh) d). unfold rel in G1. lia. }
      lia.
    + simpl in A3. assert (A4 : 0 < rel (sh_tr sh) (ODecs e (x :: l) res :: B) y) by lia. destruct (r_rel0 y d A1 A2 A4) as [F1 F2].
      specialize (Hpend d y). lia.
  - intros y A1 A2. rewrite Hrel in A2. destruct (Nat.eq_dec y x) as [->|Hne].
    + rewrite Nat.eqb_refl in A2. simpl in A2. assert (Ev : (v =? 0)%Z = false) by (destruct (v =? 0)%Z; [simpl in A2; lia|reflexivity]).
      rewrite upd_same. unfold v in *. split; [lia|]. intros Hno. specialize (Hlx2 Hno). lia.
    + rewrite upd_other, Hwt by assumption. apply r_left0; [assumption|lia].
  - intros y A. destruct (Nat.eq_dec y x) as [->|Hne]; [|rewrite upd_other by assumption; auto].
    exfalso. unfold rel in Hrelx. lia.
  - intros y Hy. destruct (Nat.eq_dec y x) as [->|Hne]; [|rewrite upd_other by assumption; auto].
    rewrite upd_same. unfold v. lia.
  - intros o Ho. apply in_app_or in Ho. destruct Ho as [Ho|Ho]; [|apply r_wfop0; right; exact Ho].
    assert (Hil : incl l (succ g e)) by (intros y Hy; apply Hincl; right; exact Hy).
    assert (Hwn : forall res', (forall z, res' = Some z -> In z (els g)) -> wf_op (sh_tr sh) (ODecs e l res')).
    { intros res' Hr. simpl. repeat (split; [assumption|]). exact Hr. }
    rewrite Hnew in Ho. destruct (v =? 0)%Z; [destruct res as [y|]|].
    + destruct Ho as [<-|[<-|[]]]; [exact Hxe|apply Hwn; exact Hres].
    + destruct Ho as [<-|[]]. apply Hwn. intros z Ez; inversion Ez; subst; exact Hxe.
    + destruct Ho as [<-|[]]. apply Hwn; exact Hres.
  - assert (E2 : sumf (fun d => sumf (f_tail d) (new ++ B) + sumf (f_aft d) (new ++ B)) (ends g) =
                 sumf (fun d => sumf (f_tail d) (ODecs e (x :: l) res :: B) + sumf (f_aft d) (ODecs e (x :: l) res :: B)) (ends g)).
    { apply sumf_ext. intros d _. rewrite !sumf_app, Ht, Ha. simpl. lia. }
    rewrite E2. assumption.
Qed.

(** ** Shapes *)
Lemma calc_shape_spec e : In e (els g) ->
  match calc_shape g (c_bind c) e with
  | ShLinkable => exists x, succ g e = [x] /\ dep g x = [e] /\ c_bind c e = c_bind c x
  | ShRoot => succ g e <> [] /\ forall x, In x (succ g e) -> dep g x = [e]
  | ShTail => succ g e = []
  | ShNormal => succ g e <> [] /\ exists x, In x (succ g e) /\ 2 <= length (dep g x)
  end.
Proof.
  intros He. unfold calc_shape.
  assert (Hall : forall l, incl l (succ g e) -> forallb (fun x => Nat.eqb (length (dep g x)) 1) l = true -> forall x, In x l -> dep g x = [e]).
  { intros l Hl Hf x Hx. rewrite forallb_forall in Hf. specialize (Hf x Hx). apply Nat.eqb_eq in Hf.
    destruct (succ_in_els e x He (Hl x Hx)) as [Hxe Hd]. apply dep_single; auto. }
  assert (Hex : forall l, incl l (succ g e) -> forallb (fun x => Nat.eqb (length (dep g x)) 1) l = false -> exists x, In x l /\ 2 <= length (dep g x)).
  { induction l as [|a l IH]; intros Hl Hf; simpl in Hf; [discriminate|]. apply andb_false_iff in Hf. destruct Hf as [Hf|Hf].
    - exists a. split; [left; reflexivity|]. apply Nat.eqb_neq in Hf.
      destruct (succ_in_els e a He (Hl a (or_introl eq_refl))) as [_ Hd]. destruct (dep g a); [contradiction|simpl in *; lia].
    - destruct IH as [x [Hx Hx2]]; [intros y Hy; apply Hl; right; exact Hy|exact Hf|]. exists x; split; [right; exact Hx|exact Hx2]. }
  destruct (succ g e) as [|x [|y l]] eqn:Es.
  - simpl. reflexivity.
  - destruct (Nat.eqb (length (dep g x)) 1 && Z.eqb (c_bind c e) (c_bind c x)) eqn:E1.
    + apply andb_true_iff in E1. destruct E1 as [E1 E2]. exists x. split; [reflexivity|]. split; [|apply Z.eqb_eq; exact E2].
      apply (Hall [x]); [apply incl_refl|simpl; rewrite E1; reflexivity|left; reflexivity].
    + cbn [is_nil negb andb]. destruct (forallb (fun x0 => Nat.eqb (length (dep g x0)) 1) [x]) eqn:Ef.
      * split; [discriminate|]. apply Hall; [apply incl_refl|exact Ef].
      * split; [discriminate|]. apply Hex; [apply incl_refl|exact Ef].
  - cbn [is_nil negb andb]. destruct (forallb (fun x0 => Nat.eqb (length (dep g x0)) 1) (x :: y :: l)) eqn:Ef.
    + split; [discriminate|]. apply Hall; [apply incl_refl|exact Ef].
    + split; [discriminate|]. apply Hex; [apply incl_refl|exact Ef].
Qed.

Lemma tok_map_proc x (h : nat -> bool) l : NoDup l -> sumf (f_tok x) (map (fun y => OProc y (h y)) l) = b2n (memb x l).
Proof.
  intros Hnd. rewrite sumf_map. cbn [f_tok]. rewrite <- (sumf_indicator x l Hnd). apply sumf_ext. intros y _. rewrite Nat.eqb_sym. reflexivity.
Qed.

(** ** All operations *)
Theorem RI_op sh o r B sh' new enq nt :
  RI sh (o :: B) -> op_sem c sh o r = (sh', new, enq, nt) -> RI sh' (new ++ map OExec enq ++ B).
Proof.
  intros R H. pose proof (r_wfop _ _ R o (or_introl eq_refl)) as Hw.
  destruct o as [e aff|e|e|e|e r0| |e|e l res|e|]; simpl in H, Hw.
  - destruct (isErr (sh_stat sh)) eqn:Ee.
    + inversion H; subst; simpl. eapply RI_drop; [exact Ee| |exact R]. reflexivity.
    + destruct (aff && is_default c e); inversion H; subst; simpl.
      * eapply (RI_same sh' (OProc e aff) [OExec e]); simpl; try (intros; lia); [|exact R]. intros o [<-|[]]; exact Hw.
      * eapply (RI_same sh' (OProc e aff) [OEnq e]); simpl; try (intros; lia); [|exact R]. intros o [<-|[]]; exact Hw.
  - inversion H; subst; simpl. eapply (RI_same sh' (OEnq e) [OExec e]); simpl; try (intros; lia); [|exact R]. intros o [<-|[]]; exact Hw.
  - inversion H; subst; simpl. apply RI_exec; exact R.
  - destruct (isErr r) eqn:Er; inversion H; subst; simpl.
    + apply RI_finish_err; [apply isErr_code; exact Er|exact R].
    + apply RI_finish_ok; [apply isErr_false; exact Er|exact R].
  - inversion H; subst; simpl. eapply RI_err; exact R.
  - inversion H; subst; simpl. eapply (RI_same sh' ONotify []); simpl; try (intros; lia); exact R.
  - destruct (isErr (sh_stat sh)) eqn:Ee.
    + inversion H; subst; simpl. eapply RI_drop; [exact Ee| |exact R]. reflexivity.
    + pose proof (calc_shape_spec e Hw) as Hs. destruct (calc_shape g (c_bind c) e) eqn:Esh.
      * destruct Hs as [Hne _]. inversion H; subst; simpl.
        eapply (RI_same sh' (OAfter e) [ODecs e (succ g e) None]); simpl; try (intros; lia); [| | | |exact R].
        -- intros x. destruct (succ g e); simpl; lia.
        -- intros x Hx. apply ends_in in Hx. destruct Hx as [_ Hx]. destruct (Nat.eqb_spec e x); [subst; contradiction|reflexivity].
        -- intros d x. destruct (Nat.eqb_spec e d); subst; simpl; lia.
        -- intros o [<-|[]]. simpl. repeat split; auto; [apply incl_refl|apply (wf_succ g Hwf e Hw)|discriminate].
      * destruct Hs as [x [Es [Ed _]]]. rewrite Es in H. inversion H; subst. simpl.
        change (OProc x true :: B) with ([OProc x true] ++ B). apply (RI_release sh' e [OProc x true] B R).
        -- rewrite Es; discriminate.
        -- intros y Hy. rewrite Es in Hy. destruct Hy as [<-|[]]. rewrite Ed. reflexivity.
        -- intros y. rewrite Es. simpl. rewrite Nat.eqb_sym. destruct (Nat.eqb y x); reflexivity.
        -- intros o [<-|[]]. exists x, true. rewrite Es. split; [reflexivity|left; reflexivity].
      * destruct Hs as [Hne Hd]. inversion H; subst. cbn [map app].
        apply (RI_release sh' e _ B R).
        -- exact Hne.
        -- intros y Hy. rewrite (Hd y Hy). reflexivity.
        -- intros y. apply (tok_map_proc y (fun x => Nat.eqb x (last (succ g e) 0))). apply (wf_succ g Hwf e Hw).
        -- intros o Ho. apply in_map_iff in Ho. destruct Ho as [y [<- Hy]]. eauto.
      * inversion H; subst; simpl. assert (Hend : In e (ends g)) by (apply ends_in; auto).
        (* OAfter of a tail becomes OTail *)
        assert (Hp0 : forall d x, f_pend d x (OAfter e) = 0).
        { intros d x. simpl. destruct (Nat.eqb_spec e d); [subst; rewrite Hs|]; reflexivity. }
        assert (S1 : forall f, sumf f (OTail e :: B) = f (OTail e) + sumf f B) by reflexivity.
        assert (Hrel : forall x, rel (sh_tr sh') (OTail e :: B) x = rel (sh_tr sh') (OAfter e :: B) x) by reflexivity.
        assert (Hwt : forall x, waits (sh_tr sh') (OTail e :: B) x = waits (sh_tr sh') (OAfter e :: B) x).
        { intros x. unfold waits. apply sumf_ext. intros d _. unfold und. cbn [sumf]. rewrite Hp0. reflexivity. }
        destruct R. constructor; try assumption.
        -- intros x. specialize (r_post0 x). simpl in *. lia.
        -- intros x d A1 A2 A3. specialize (r_rel0 x d A1 A2 A3). cbn [sumf] in *. rewrite Hp0 in r_rel0. exact r_rel0.
        -- intros x. rewrite Hwt, Hrel. auto.
        -- intros o [<-|Ho]; [exact Hend|]. apply r_wfop0; right; exact Ho.
        -- assert (E2 : sumf (fun d => sumf (f_tail d) (OTail e :: B) + sumf (f_aft d) (OTail e :: B)) (ends g) =
                        sumf (fun d => sumf (f_tail d) (OAfter e :: B) + sumf (f_aft d) (OAfter e :: B)) (ends g)).
           { apply sumf_ext. intros d _. simpl. lia. }
           rewrite E2. assumption.
  - destruct l as [|x l].
    + destruct res as [x|]; inversion H; subst; simpl; destruct Hw as [W1 [W2 [W3 [W4 W5]]]].
      * (* the reserved successor is processed in place *)
        destruct R. 
        assert (Hrel : forall y, rel (sh_tr sh') (OProc x true :: B) y = rel (sh_tr sh') (ODecs e [] (Some x) :: B) y) by reflexivity.
        assert (Hp0 : forall d y, f_pend d y (ODecs e [] (Some x)) = 0) by (intros; simpl; rewrite andb_false_r; reflexivity).
        assert (Hwt : forall y, waits (sh_tr sh') (OProc x true :: B) y = waits (sh_tr sh') (ODecs e [] (Some x) :: B) y).
        { intros y. unfold waits. apply sumf_ext. intros d _. unfold und. cbn [sumf]. rewrite Hp0. reflexivity. }
        constructor; try assumption.
        -- intros y d A1 A2 A3. specialize (r_rel0 y d A1 A2 A3). cbn [sumf] in *. rewrite Hp0 in r_rel0. exact r_rel0.
        -- intros y. rewrite Hwt, Hrel. auto.
        -- intros o [<-|Ho]; [simpl; apply W5; reflexivity|]. apply r_wfop0; right; exact Ho.
      * destruct R.
        assert (Hp0 : forall d y, f_pend d y (ODecs e [] None) = 0) by (intros; simpl; rewrite andb_false_r; reflexivity).
        assert (Hwt : forall y, waits (sh_tr sh') B y = waits (sh_tr sh') (ODecs e [] None :: B) y).
        { intros y. unfold waits. apply sumf_ext. intros d _. unfold und. cbn [sumf]. rewrite Hp0. reflexivity. }
        constructor; try assumption.
        -- intros y d A1 A2 A3. specialize (r_rel0 y d A1 A2 A3). cbn [sumf] in *. rewrite Hp0 in r_rel0. exact r_rel0.
        -- intros y. rewrite Hwt. apply r_left0.
        -- intros o Ho. apply r_wfop0; right; exact Ho.
    + pose proof (RI_dec sh e x l res _ B R eq_refl) as R'. cbn zeta in R'.
      destruct (sh_left sh x - 1 =? 0)%Z; [destruct res|]; inversion H; subst; exact R'.
  - pose proof (RI_tail sh e B R) as R'. inversion H; subst; clear H.
    set (sh2 := mkSh (sh_left sh) (S (sh_fin sh)) (sh_stat sh) (sh_tr sh)) in *. cbn [map app].
    match goal with |- RI _ ((if ?b then _ else _) ++ _) => destruct b end; [|exact R'].
    destruct R'. constructor; try assumption. intros o [<-|Ho]; [exact I|auto].
  - inversion H; subst; simpl. eapply (RI_same sh' OLockNotify []); simpl; try (intros; lia); exact R.
Qed.
End Inv.
