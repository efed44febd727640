From Verif Require Import GraphSpec StaticModel StaticProofs.
From Coq Require Import Lia Permutation.
Local Open Scope nat_scope.
Local Open Scope list_scope.

(** When run returns nothing of it is left in the pool *)
Lemma split_prefix {A} : forall (a b c d : list A) x, a ++ b = c ++ x :: d -> (exists t, a = c ++ x :: t) \/ (exists t, c = a ++ t).
Proof.
  induction a as [|y a IH]; intros b c d x E; [right; now exists c|]. destruct c as [|z c]; cbn [app] in E.
  - injection E as -> E. left. now exists a.
  - injection E as -> E. destruct (IH b c d x E) as [(t & ->)|(t & ->)]; [left; now exists t|right; now exists t].
Qed.
Lemma nothing_left inl g mat s con : wf g -> layering g mat -> sinv inl g mat s con -> s_out s <> None -> s_queue s = [] /\ s_running s = [].
Proof.
  intros Hwf Hl I O.
  assert (M : s_main s = [] \/ exists m, s_main s = ACheck :: m).
  { pose proof (si_out _ _ _ _ _ I) as H. destruct (s_out s) as [[v|v]|]; [destruct H as [_ [[H _]|[_ H]]]|destruct H as (_ & _ & H)|congruence]; auto. }
  assert (X : forall e, cnt e (s_queue s) = 0 /\ cnt e (s_running s) = 0).
  { intros e. pose proof (si_cons _ _ _ _ _ I e) as C. pose proof (si_fin _ _ _ _ _ I e) as F.
    destruct (Nat.eq_dec (cnt e (s_queue s) + cnt e (s_running s)) 0) as [Z|Z]; [lia|exfalso].
    assert (Hi : inl e = false) by (apply (si_inl _ _ _ _ _ I); lia).
    destruct (prog_w inl e mat) as (W1 & W2 & W3 & W4 & W5). rewrite Hi in W2, W3, W4, W5. fold (prog inl mat) in W1, W2, W3, W4, W5.
    pose proof (si_prog _ _ _ _ _ I) as Hp. rewrite Hp, sumf_app in W1, W2, W3, W4, W5.
    assert (Hm : cnt e (concat mat) <= 1) by (apply cnt_nodup; exact (mat_nodup g mat Hwf Hl)).
    assert (Hst : forall m, sumf (w_start e) m = sumf (w_com e) m + sumf (w_ms e) m) by (clear; induction m as [|a m IH]; cbn [sumf]; [reflexivity|]; destruct a; cbn [w_start w_com w_ms]; lia).
    assert (HC : 0 < sumf (w_com e) con) by (rewrite !Hst in *; lia).
    assert (Hin : In e (concat mat)) by (apply cnt_in; lia).
    apply in_concat in Hin as (le & Hle & Hee). apply in_split in Hle as (m1 & m2 & Emat).
    assert (N1 : cnt e (concat m1) = 0). { rewrite Emat, concat_app, cnt_app in Hm. cbn [concat] in Hm. rewrite cnt_app in Hm. assert (0 < cnt e le) by (now apply cnt_in). lia. }
    set (body := map ACommit (filter (fun x => negb (inl x)) le) ++ flat_map (fun x => [AMacroStart x; AMacroFinish x]) (filter inl le) ++ map AGet (filter (fun x => negb (inl x)) le)).
    assert (Hpre : prog inl mat = (static_prog inl m1 ++ body) ++ ACheck :: static_prog inl m2).
    { unfold prog, static_prog, body. rewrite Emat, flat_map_app. cbn [flat_map]. unfold layer_prog. rewrite <- !app_assoc. reflexivity. }
    assert (GET : exists t, con = (static_prog inl m1 ++ body) ++ t).
    { destruct M as [M|(m & M)]; rewrite M in Hp.
      - rewrite app_nil_r in Hp. exists (ACheck :: static_prog inl m2). congruence.
      - rewrite Hp in Hpre. destruct (split_prefix (static_prog inl m1 ++ body) (ACheck :: static_prog inl m2) con m ACheck (eq_sym Hpre)) as [(t & T)|T]; [exfalso|exact T].
        destruct (split_prefix (static_prog inl m1) body con t ACheck T) as [(u & U)|(u & U)].
        + destruct (prog_w inl e m1) as (_ & _ & _ & _ & V). rewrite Hi, N1, U, sumf_app in V. lia.
        + rewrite U, <- app_assoc in T. apply app_inv_head in T. assert (B : In ACheck body) by (rewrite T; apply in_or_app; right; now left).
          unfold body in B. apply in_app_iff in B as [B|B]; [apply in_map_iff in B as (? & B & _); discriminate|].
          apply in_app_iff in B as [B|B]; [apply in_flat_map in B as (? & _ & [B|[B|[]]]); discriminate|]. apply in_map_iff in B as (? & B & _). discriminate. }
    destruct GET as (t & GET).
    assert (J : joined e con).
    { left. rewrite GET. apply in_or_app. left. apply in_or_app. right. unfold body. apply in_or_app. right. apply in_or_app. right. apply in_map, filter_In. split; [exact Hee|now rewrite Hi]. }
    destruct (si_join _ _ _ _ _ I e J) as (v & V & _). assert (FI : 0 < cnt e (map fst (finishes (s_tr s)))).
    { apply cnt_in, in_map_iff. exists (e, v). split; [reflexivity|]. now apply in_finishes. }
    lia. }
  split; [destruct (s_queue s) as [|e q]; trivial; destruct (X e) as [Y _]; rewrite cnt_cons, Nat.eqb_refl in Y; discriminate|].
  destruct (s_running s) as [|e q]; trivial; destruct (X e) as [_ Y]; rewrite cnt_cons, Nat.eqb_refl in Y; discriminate.
Qed.
