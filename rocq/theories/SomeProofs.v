(** One execution of a some-group that starts when no task of an earlier one is left. *)
From Verif Require Import GroupModel GroupProofs ElemProofs.
From Coq Require Import Lia.
Local Open Scope nat_scope.
Local Open Scope list_scope.

Definition gone (t : nat * stask) : bool := match snd t with SGone => true | _ => false end.
Definition quiet (s : some_st) : Prop :=
  (s_main s = SIdle \/ exists r, s_main s = SDone r) /\ forall t, In t (s_tasks s) -> gone t = true.
Definition counted_of (re : list sev) : list (nat * status) := flat_map (fun e => match e with SECount c s => [(c, s)] | _ => [] end) re.
Definition rets_of (re : list sev) : list status := flat_map (fun e => match e with SERet r => [r] | _ => [] end) re.
Lemma counted_app a b : counted_of (a ++ b) = counted_of a ++ counted_of b. Proof. apply flat_map_app. Qed.
Lemma rets_app a b : rets_of (a ++ b) = rets_of a ++ rets_of b. Proof. apply flat_map_app. Qed.
Definition is_run (l : slabel) : bool := match l with SLRun _ => true | _ => false end.

Section One.
Variables (n : nat) (w : Z) (s0 : some_st).
Hypothesis Hw : (0 <= w <= Z.of_nat n)%Z.

Definition c0 : status := st_reset (s_cur s0).
Lemma c0_ok : code c0 = 0%Z.
Proof. unfold c0, st_reset. destruct (code (s_cur s0) =? STATUS_OK)%Z eqn:E; cbn; [now apply Z.eqb_eq in E|reflexivity]. Qed.

Definition marking (m : smain) : bool := match m with SMark _ | SDone _ => true | _ => false end.
(** Facts about a finished prefix [a] of the events of the run. *)
Definition finished_ok (a : list sev) : Prop :=
  forall c s, In (c, s) (counted_of a) -> In (SEEnd c s) a /\ In (SEBody c) a \/ (s_tmo s0 c = true /\ s = st_default /\ In (SESkip c) a).
Definition SInv (s : some_st) : Prop :=
  exists re new k,
    s_evs s = s_evs s0 ++ SERun w :: re /\ s_tasks s = s_tasks s0 ++ new /\ map fst new = seq 0 k /\ k <= n /\
    Permutation (map fst (counted_of re)) (map fst (filter gone new)) /\
    s_wait s = (w - Z.of_nat (List.length (counted_of re)))%Z /\
    s_cur s = st_sum c0 (map snd (counted_of re)) /\
    (forall c, In (c, SBody) new -> In (SEBody c) re) /\
    (forall c s1, In (c, SFin s1) new -> In (SEEnd c s1) re /\ In (SEBody c) re \/ In (SESkip c) re /\ s1 = st_default /\ (s_tmo s0 c = true \/ marking (s_main s) = true)) /\
    (marking (s_main s) = false -> forall c, s_tmo s c = s_tmo s0 c) /\
    match s_main s with
    | SIdle => False
    | SExec j => j = k /\ rets_of re = [] /\ finished_ok re
    | SEval | SSleep true => k = n /\ rets_of re = [] /\ finished_ok re
    | SSleep false => k = n /\ rets_of re = [] /\ finished_ok re /\ some_pred s = false
    | SMark j => k = n /\ j <= n /\ rets_of re = [] /\ finished_ok re /\ some_pred s = true
    | SDone r => k = n /\ exists a b, re = a ++ SERet r :: b /\ rets_of a = [] /\ rets_of b = [] /\ finished_ok a /\
        NoDup (map fst (counted_of a)) /\ (forall c s1, In (c, s1) (counted_of a) -> c < n) /\
        r = st_assign st_default (st_sum c0 (map snd (counted_of a))) /\
        ((w <= Z.of_nat (List.length (counted_of a)))%Z \/ isErr (st_sum c0 (map snd (counted_of a))) = true)
    end.

Lemma SInv_start s : quiet s0 -> some_step n s0 (SLRun w) = Some s -> SInv s.
Proof.
  intros [Hm Hq] E. cbn [some_step] in E.
  assert (E1 : ((w <? 0)%Z || (Z.of_nat n <? w)%Z) = false).
  { apply Bool.orb_false_iff. split; apply Z.ltb_ge; lia. }
  rewrite E1 in E.
  assert (X : s = mkS w (st_reset (s_cur s0)) (s_tasks s0) (s_tmo s0) (SExec 0) (s_evs s0 ++ [SERun w])).
  { destruct Hm as [Hm|[r Hm]]; rewrite Hm in E; now inversion E. }
  subst s. exists [], [], 0. cbn [s_evs s_tasks s_wait s_cur s_main s_tmo].
  rewrite !app_nil_r. repeat (split; [first [reflexivity|cbn; lia|constructor|easy]|]). intros c s1 [].
Qed.

Lemma finished_snoc a e : (forall c s, e <> SECount c s) -> finished_ok a -> finished_ok (a ++ [e]).
Proof.
  intros He H c s Hin. rewrite counted_app in Hin. assert (E : counted_of [e] = []) by (destruct e as [| | | |c1 s1| |]; try reflexivity; now destruct (He c1 s1)).
  rewrite E, app_nil_r in Hin. destruct (H c s Hin) as [[H1 H2]|(H1 & H2 & H3)].
  - left. rewrite !in_app_iff. auto.
  - right. rewrite in_app_iff. auto.
Qed.
Lemma filter_gone_nodup re new k : map fst new = seq 0 k -> Permutation (map fst (counted_of re)) (map fst (filter gone new)) ->
  NoDup (map fst (counted_of re)) /\ (forall c s1, In (c, s1) (counted_of re) -> c < k).
Proof.
  intros Hm P.
  assert (S : forall x, In x (map fst (filter gone new)) -> In x (map fst new)).
  { intros x Hx. apply in_map_iff in Hx. destruct Hx as (t & <- & Ht). apply filter_In in Ht. now apply in_map. }
  split.
  - apply (Permutation_NoDup (Permutation_sym P)). assert (ND : NoDup (map fst new)) by (rewrite Hm; apply seq_NoDup).
    clear -ND. induction new as [|t new IH]; [constructor|]. cbn in *. inversion ND as [|? ? N1 N2]; subst. destruct (gone t); cbn; [|now apply IH].
    constructor; [|now apply IH]. intro H. apply N1. apply in_map_iff in H. destruct H as (u & E & H). apply filter_In in H. rewrite <- E. now apply in_map.
  - intros c s1 H. apply (in_map fst) in H. cbn in H. apply (Permutation_in _ P) in H. apply S in H. rewrite Hm, in_seq in H. lia.
Qed.
Lemma some_pred_eq a b : s_wait a = s_wait b -> s_cur a = s_cur b -> some_pred a = some_pred b.
Proof. unfold some_pred. now intros -> ->. Qed.

(** Task steps act on the new tasks. *)
Lemma task_split new i c t x : (forall u, In u (s_tasks s0) -> gone u = true) -> t <> SGone -> nth_error (s_tasks s0 ++ new) i = Some (c, t) ->
  exists a b, new = a ++ (c, t) :: b /\ set_nth (s_tasks s0 ++ new) i (c, x) = s_tasks s0 ++ a ++ (c, x) :: b.
Proof.
  intros Hq Ht En. destruct (Nat.lt_ge_cases i (List.length (s_tasks s0))) as [Hi|Hi].
  - rewrite nth_error_app1 in En by exact Hi. apply nth_error_In in En. apply Hq in En. unfold gone in En. cbn in En. destruct t; easy.
  - destruct (set_nth_split _ i _ (c, x) En) as (a & b & E & Hl & Es).
    assert (Ea : a = s_tasks s0 ++ skipn (List.length (s_tasks s0)) a).
    { rewrite <- (firstn_skipn (List.length (s_tasks s0)) a) at 1. f_equal.
      assert (H : firstn (List.length (s_tasks s0)) (a ++ (c, t) :: b) = s_tasks s0).
      { rewrite <- E, firstn_app, Nat.sub_diag, firstn_all. cbn. now rewrite app_nil_r. }
      rewrite firstn_app in H. replace (List.length (s_tasks s0) - List.length a) with 0 in H by lia. cbn in H. now rewrite app_nil_r in H. }
    exists (skipn (List.length (s_tasks s0)) a), b. rewrite Es. rewrite Ea in E at 1. rewrite <- app_assoc in E. apply app_inv_head in E.
    split; [exact E|]. rewrite Ea at 1. now rewrite <- app_assoc.
Qed.

Lemma SInv_step s lb s' : (forall u, In u (s_tasks s0) -> gone u = true) -> SInv s -> is_run lb = false -> some_step n s lb = Some s' -> SInv s'.
Proof.
  intros Hq (re & new & k & I1 & I2 & I3 & I4 & I5 & I6 & I7 & I8 & I9 & I10 & I11) Hr E.
  destruct s as [sw sc st tm m ev]. cbn [s_evs s_tasks s_wait s_cur s_main s_tmo] in *. subst ev st.
  destruct lb as [wr| | |i|i r|i|]; try discriminate; cbn [some_step s_main s_evs s_tasks s_wait s_cur s_tmo] in E.
  - (* caller *)
    destruct m as [|j| |b|j|r]; try discriminate.
    + destruct I11 as (-> & I12 & I13). destruct (Nat.ltb_spec k n) as [Hk|Hk]; inversion E; subst s'; clear E.
      * exists re, (new ++ [(k, SQueued)]), (S k). cbn [s_evs s_tasks s_wait s_cur s_main s_tmo].
        split; [easy|]. split; [now rewrite app_assoc|]. split; [rewrite map_app, I3, seq_S; reflexivity|]. split; [lia|].
        split; [rewrite filter_app; cbn; now rewrite app_nil_r|]. split; [exact I6|]. split; [exact I7|].
        split; [intros c Hc; rewrite in_app_iff in Hc; destruct Hc as [Hc|[Hc|[]]]; [now apply I8|discriminate]|].
        split; [intros c s1 Hc; rewrite in_app_iff in Hc; destruct Hc as [Hc|[Hc|[]]]; [now apply I9|discriminate]|].
        split; [exact I10|]. auto.
      * exists re, new, k. cbn [s_evs s_tasks s_wait s_cur s_main s_tmo]. assert (k = n) by lia. auto 20.
    + destruct I11 as (Hk & I12 & I13). inversion E; subst s'; clear E. exists re, new, k.
      cbn [s_evs s_tasks s_wait s_cur s_main s_tmo].
      set (q := some_pred _). do 7 (split; [first [assumption|reflexivity]|]). 
      split; [exact I8|]. split; [|split].
      * intros c s1 Hc. destruct (I9 c s1 Hc) as [H|(H1 & H2 & H3)]; [now left|]. right. split; [exact H1|]. split; [exact H2|]. left. now destruct H3.
      * destruct q; intros Hm c; [discriminate|now apply I10].
      * destruct q eqn:Eq.
        -- repeat (split; [first [assumption|lia]|]). first [reflexivity|exact Eq].
        -- repeat (split; [first [assumption|lia]|]). first [reflexivity|exact Eq].
    + destruct b; [|discriminate]. inversion E; subst s'; clear E. exists re, new, k. cbn [s_evs s_tasks s_wait s_cur s_main s_tmo]. auto 20.
    + destruct I11 as (Hk & Hj & I12 & I13 & I14). destruct (Nat.ltb_spec j n) as [Hlt|Hge]; inversion E; subst s'; clear E.
      * exists re, new, k. cbn [s_evs s_tasks s_wait s_cur s_main s_tmo]. repeat (split; [first [assumption|reflexivity|discriminate|lia]|]). exact I14.
      * exists (re ++ [SERet (st_assign st_default sc)]), new, k. cbn [s_evs s_tasks s_wait s_cur s_main s_tmo].
        rewrite counted_app. cbn. rewrite app_nil_r.
        split; [now rewrite <- app_assoc|]. do 6 (split; [first [assumption|reflexivity]|]).
        split; [intros c Hc; rewrite in_app_iff; left; now apply I8|].
        split; [intros c s1 Hc; rewrite !in_app_iff; destruct (I9 c s1 Hc) as [[H H0]|(H1 & H2 & H3)]; auto|].
        split; [discriminate|]. split; [exact Hk|]. exists re, []. split; [easy|]. split; [exact I12|]. split; [easy|]. split; [exact I13|].
        destruct (filter_gone_nodup re new k I3 I5) as [ND LT]. split; [exact ND|]. split; [rewrite <- Hk; exact LT|].
        split; [now rewrite I7|]. unfold some_pred in I14. cbn [s_wait s_cur] in I14. apply Bool.orb_true_iff in I14. destruct I14 as [H|H].
        -- left. apply Z.leb_le in H. lia.
        -- right. now rewrite <- I7.
  - (* spurious *)
    destruct m as [|j| |b|j|r]; try discriminate. destruct b; [discriminate|]. inversion E; subst s'; clear E.
    exists re, new, k. cbn [s_evs s_tasks s_wait s_cur s_main s_tmo]. destruct I11 as (H1 & H2 & H3 & H4). auto 20.
  - (* start *)
    destruct (nth_error (s_tasks s0 ++ new) i) as [[c t]|] eqn:En; [|discriminate]. destruct t; try discriminate.
    assert (GEN : forall t' e re', re' = re ++ [e] -> (e = SESkip c /\ t' = SFin st_default /\ tm c = true \/ e = SEBody c /\ t' = SBody) ->
       s' = mkS sw sc (set_nth (s_tasks s0 ++ new) i (c, t')) tm m ((s_evs s0 ++ SERun w :: re) ++ [e]) -> SInv s').
    { intros t' e re' Hre He ->.
      destruct (task_split new i c SQueued t' Hq ltac:(easy) En) as (a & b & -> & Es). rewrite Es.
      assert (Ce : counted_of re' = counted_of re) by (subst re'; rewrite counted_app; destruct He as [(-> & _)|[-> _]]; cbn; now rewrite app_nil_r).
      assert (Re : rets_of re' = rets_of re) by (subst re'; rewrite rets_app; destruct He as [(-> & _)|[-> _]]; cbn; now rewrite app_nil_r).
      assert (Fe : forall x, x = re -> finished_ok x -> finished_ok re').
      { intros x -> F. subst re'. apply finished_snoc; [|exact F]. intros c1 s1 X. destruct He as [(-> & _)|[-> _]]; discriminate. }
      assert (Inr : forall x, In x re -> In x re') by (intros x Hx; subst re'; rewrite in_app_iff; now left).
      exists re', (a ++ (c, t') :: b), k. cbn [s_evs s_tasks s_wait s_cur s_main s_tmo]. rewrite Ce.
      split; [subst re'; now rewrite <- app_assoc|]. split; [easy|]. split; [rewrite <- I3; rewrite !map_app; reflexivity|]. split; [exact I4|].
      split. { rewrite filter_app in *. cbn in *. destruct He as [(_ & -> & _)|[_ ->]]; exact I5. }
      split; [exact I6|]. split; [exact I7|]. split.
      { intros c1 Hc. rewrite in_app_iff in Hc. destruct Hc as [Hc|[Hc|Hc]].
        - apply Inr, I8. rewrite in_app_iff. now left.
        - inversion Hc; subst. destruct He as [(_ & ? & _)|[-> _]]; [discriminate|]. rewrite in_app_iff. right. now left.
        - apply Inr, I8. rewrite in_app_iff. right. now right. }
      split.
      { intros c1 s1 Hc. rewrite in_app_iff in Hc. destruct Hc as [Hc|[Hc|Hc]].
        - destruct (I9 c1 s1) as [[H1 H2]|(H1 & H2)]; [rewrite in_app_iff; now left|left; split; now apply Inr|right; split; [now apply Inr|exact H2]].
        - inversion Hc; subst. destruct He as [(-> & Et & Htm)|[_ Et]]; [|discriminate]. inversion Et; subst. right.
          split; [rewrite in_app_iff; right; now left|]. split; [easy|]. destruct (marking m) eqn:Em; [now right|]. left. rewrite <- I10 by easy. exact Htm.
        - destruct (I9 c1 s1) as [[H1 H2]|(H1 & H2)]; [rewrite in_app_iff; right; now right|left; split; now apply Inr|right; split; [now apply Inr|exact H2]]. }
      split; [exact I10|]. destruct m as [|j| |[|]|j|r].
      - exact I11.
      - rewrite Re. destruct I11 as (? & ? & ?). repeat split; auto. now apply (Fe re).
      - rewrite Re. destruct I11 as (? & ? & ?). repeat split; auto. now apply (Fe re).
      - rewrite Re. destruct I11 as (? & ? & ?). repeat split; auto. now apply (Fe re).
      - rewrite Re. destruct I11 as (? & ? & ? & ?). repeat split; auto. now apply (Fe re).
      - rewrite Re. destruct I11 as (? & ? & ? & ? & ?). repeat split; auto. now apply (Fe re).
      - destruct I11 as (Hk & x & y & Hxy & X1 & X2 & X3). split; [exact Hk|]. exists x, (y ++ [e]). split; [subst re' re; now rewrite <- app_assoc|].
        split; [exact X1|]. split; [rewrite rets_app, X2; destruct He as [(-> & _)|[-> _]]; reflexivity|exact X3]. }
    destruct (tm c) eqn:Et; inversion E; subst s'; clear E.
    + apply (GEN (SFin st_default) (SESkip c) _ eq_refl); auto.
    + apply (GEN SBody (SEBody c) _ eq_refl); auto.
  - (* end of a body *)
    destruct (nth_error (s_tasks s0 ++ new) i) as [[c t]|] eqn:En; [|discriminate]. destruct t; try discriminate. inversion E; subst s'; clear E.
    destruct (task_split new i c SBody (SFin r) Hq ltac:(easy) En) as (a & b & -> & Es). rewrite Es.
    set (re' := re ++ [SEEnd c r]).
    assert (Ce : counted_of re' = counted_of re) by (subst re'; rewrite counted_app; cbn; now rewrite app_nil_r).
    assert (Re : rets_of re' = rets_of re) by (subst re'; rewrite rets_app; cbn; now rewrite app_nil_r).
    assert (Fe : forall x, x = re -> finished_ok x -> finished_ok re').
    { intros x -> F. subst re'. apply finished_snoc; [|exact F]. intros c1 s1 X. discriminate. }
    assert (Inr : forall x, In x re -> In x re') by (intros x Hx; subst re'; rewrite in_app_iff; now left).
    exists re', (a ++ (c, SFin r) :: b), k. cbn [s_evs s_tasks s_wait s_cur s_main s_tmo]. rewrite Ce.
    split; [subst re'; now rewrite <- app_assoc|]. split; [easy|]. split; [rewrite <- I3; rewrite !map_app; reflexivity|]. split; [exact I4|].
    split. { rewrite filter_app in *. cbn in *. exact I5. }
    split; [exact I6|]. split; [exact I7|]. split.
    { intros c1 Hc. rewrite in_app_iff in Hc. apply Inr, I8. rewrite in_app_iff. destruct Hc as [Hc|[Hc|Hc]]; [now left|discriminate|right; now right]. }
    split.
    { intros c1 s1 Hc. rewrite in_app_iff in Hc. destruct Hc as [Hc|[Hc|Hc]].
      - destruct (I9 c1 s1) as [[H1 H2]|(H1 & H2)]; [rewrite in_app_iff; now left|left; split; now apply Inr|right; split; [now apply Inr|exact H2]].
      - inversion Hc; subst. left. split; [unfold re'; rewrite in_app_iff; right; now left|]. apply Inr, I8. rewrite in_app_iff. right. now left.
      - destruct (I9 c1 s1) as [[H1 H2]|(H1 & H2)]; [rewrite in_app_iff; right; now right|left; split; now apply Inr|right; split; [now apply Inr|exact H2]]. }
    split; [exact I10|]. destruct m as [|j| |[|]|j|r0].
    + exact I11.
    + rewrite Re. destruct I11 as (? & ? & ?). repeat split; auto. now apply (Fe re).
    + rewrite Re. destruct I11 as (? & ? & ?). repeat split; auto. now apply (Fe re).
    + rewrite Re. destruct I11 as (? & ? & ?). repeat split; auto. now apply (Fe re).
    + rewrite Re. destruct I11 as (? & ? & ? & ?). repeat split; auto. now apply (Fe re).
    + rewrite Re. destruct I11 as (? & ? & ? & ? & ?). repeat split; auto. now apply (Fe re).
    + destruct I11 as (Hk & x & y & Hxy & X1 & X2 & X3). split; [exact Hk|]. exists x, (y ++ [SEEnd c r]). split; [unfold re'; rewrite Hxy; now rewrite <- app_assoc|].
      split; [exact X1|]. split; [rewrite rets_app, X2; reflexivity|exact X3].
  - (* counting *)
    assert (NM : marking m = false \/ exists r0, m = SDone r0) by (destruct m; eauto; discriminate).
    assert (E' : match nth_error (s_tasks s0 ++ new) i with
      | Some (c, SFin r) => Some (mkS (sw - 1) (st_plus sc r) (set_nth (s_tasks s0 ++ new) i (c, SGone)) tm
           (match m with SSleep b => SSleep (b || (sw - 1 <=? 0)%Z || isErr (st_plus sc r)) | x => x end) ((s_evs s0 ++ SERun w :: re) ++ [SECount c r]))
      | _ => None end = Some s').
    { destruct m; try exact E. discriminate. }
    clear E. destruct (nth_error (s_tasks s0 ++ new) i) as [[c t]|] eqn:En; [|discriminate]. destruct t as [| |r|]; try discriminate. inversion E'; subst s'; clear E'.
    destruct (task_split new i c (SFin r) SGone Hq ltac:(easy) En) as (a & b & -> & Es). rewrite Es.
    set (re' := re ++ [SECount c r]).
    assert (Ce : counted_of re' = counted_of re ++ [(c, r)]) by (subst re'; rewrite counted_app; reflexivity).
    assert (Re : rets_of re' = rets_of re) by (subst re'; rewrite rets_app; cbn; now rewrite app_nil_r).
    assert (Inr : forall x, In x re -> In x re') by (intros x Hx; subst re'; rewrite in_app_iff; now left).
    assert (Fe : marking m = false -> finished_ok re -> finished_ok re').
    { intros Hm F c1 s1 Hin. rewrite Ce, in_app_iff in Hin. destruct Hin as [Hin|[Hin|[]]].
      - destruct (F c1 s1 Hin) as [[H1 H2]|(H1 & H2 & H3)]; [left; split; now apply Inr|right; repeat split; auto].
      - inversion Hin; subst. destruct (I9 c1 s1) as [[H1 H2]|(H1 & H2 & H3)]; [rewrite in_app_iff; right; now left|left; split; now apply Inr|].
        right. destruct H3 as [H3|H3]; [|congruence]. repeat split; auto. }
    exists re', (a ++ (c, SGone) :: b), k. cbn [s_evs s_tasks s_wait s_cur s_main s_tmo]. rewrite Ce.
    split; [subst re'; now rewrite <- app_assoc|]. split; [easy|]. split; [rewrite <- I3; rewrite !map_app; reflexivity|]. split; [exact I4|].
    split. { rewrite filter_app in *. cbn in *. rewrite !map_app in *. cbn. rewrite Permutation_app_comm. cbn. rewrite <- Permutation_middle. now constructor. }
    split; [rewrite app_length; cbn; lia|]. split; [rewrite map_app; unfold st_sum in *; cbn; rewrite fold_left_app; cbn; now rewrite <- I7|].
    split. { intros c1 Hc. rewrite in_app_iff in Hc. apply Inr, I8. rewrite in_app_iff. destruct Hc as [Hc|[Hc|Hc]]; [now left|discriminate|right; now right]. }
    split.
    { intros c1 s1 Hc. rewrite in_app_iff in Hc.
      assert (Hc' : In (c1, SFin s1) (a ++ (c, SFin r) :: b)) by (rewrite in_app_iff; destruct Hc as [Hc|[Hc|Hc]]; [now left|discriminate|right; now right]).
      destruct (I9 c1 s1 Hc') as [[H1 H2]|(H1 & H2 & H3)]; [left; split; now apply Inr|right; split; [now apply Inr|split; [exact H2|]]].
      destruct H3 as [H3|H3]; [now left|right; destruct m; easy]. }
    split; [intro Hm; apply I10; destruct m; easy|]. destruct m as [|j| |bb|j|r0].
    + exact I11.
    + rewrite Re. destruct I11 as (? & ? & ?). repeat split; auto.
    + rewrite Re. destruct I11 as (? & ? & ?). repeat split; auto.
    + assert (X : k = n /\ rets_of re = [] /\ finished_ok re) by (destruct bb; tauto). destruct X as (X1 & X2 & X3).
      destruct bb; cbn [orb]; [rewrite Re; auto|].
      destruct ((sw - 1 <=? 0)%Z || isErr (st_plus sc r)) eqn:Ep; cbn [orb]; rewrite Re; repeat split; auto.
    + destruct NM as [NM|[? NM]]; discriminate.
    + destruct I11 as (Hk & x & y & Hxy & X1 & X2 & X3). split; [exact Hk|]. exists x, (y ++ [SECount c r]). split; [unfold re'; rewrite Hxy; now rewrite <- app_assoc|].
      split; [exact X1|]. split; [rewrite rets_app, X2; reflexivity|exact X3].
  - (* reset *)
    destruct m as [|j| |b|j|r]; try discriminate; [contradiction|].
    destruct (forallb (fun t => match snd t with SBody => false | _ => true end) (s_tasks s0 ++ new)); [|discriminate]. inversion E; subst s'; clear E.
    exists (re ++ [SEReset]), new, k. cbn [s_evs s_tasks s_wait s_cur s_main s_tmo]. rewrite counted_app. cbn. rewrite app_nil_r.
    split; [now rewrite <- app_assoc|]. do 6 (split; [first [assumption|reflexivity]|]).
    split; [intros c Hc; rewrite in_app_iff; left; now apply I8|].
    split; [intros c s1 Hc; rewrite !in_app_iff; destruct (I9 c s1 Hc) as [[H H0]|(H1 & H2 & H3)]; auto|].
    split; [discriminate|]. destruct I11 as (Hk & x & y & Hxy & X1 & X2 & X3). split; [exact Hk|]. exists x, (y ++ [SEReset]).
    split; [rewrite Hxy; now rewrite <- app_assoc|]. split; [exact X1|]. split; [rewrite rets_app, X2; reflexivity|exact X3].
Qed.

Lemma SInv_steps ls : (forall u, In u (s_tasks s0) -> gone u = true) -> forall s s', SInv s -> forallb (fun l => negb (is_run l)) ls = true ->
  some_steps n s ls = Some s' -> SInv s'.
Proof.
  intro Hq. induction ls as [|l ls IH]; intros s s' I Hl E; cbn in E; [now inversion E; subst|].
  cbn in Hl. apply andb_true_iff in Hl. destruct Hl as [H1 H2]. destruct (some_step n s l) as [s1|] eqn:E1; [|discriminate].
  apply (IH s1 s'); auto. apply (SInv_step s l s1 Hq I); [now destruct (is_run l)|exact E1].
Qed.

(** The caller is never stuck while tasks can go on. *)
Lemma some_progress s : SInv s -> (forall r, s_main s <> SDone r) ->
  exists lb s', is_run lb = false /\ lb <> SLSpurious /\ lb <> SLReset /\ some_step n s lb = Some s'.
Proof.
  intros (re & new & k & I1 & I2 & I3 & I4 & I5 & I6 & I7 & I8 & I9 & I10 & I11) Hd.
  destruct s as [sw sc st tm m ev]. cbn [s_evs s_tasks s_wait s_cur s_main s_tmo] in *. subst ev st.
  assert (MAIN : (exists j, m = SExec j) \/ m = SEval \/ m = SSleep true \/ (exists j, m = SMark j) \/ m = SSleep false).
  { destruct m as [|j| |[|]|j|r]; eauto 6; [easy|now destruct (Hd r)]. }
  assert (DO : (exists j, m = SExec j) \/ m = SEval \/ m = SSleep true \/ (exists j, m = SMark j) ->
     exists lb s', is_run lb = false /\ lb <> SLSpurious /\ lb <> SLReset /\ some_step n (mkS sw sc (s_tasks s0 ++ new) tm m (s_evs s0 ++ SERun w :: re)) lb = Some s').
  { intro H. exists SLMain. destruct H as [[j ->]|[->|[->|[j ->]]]]; cbn [some_step s_main]; try (destruct (j <? n)); eexists; (split; [reflexivity|]; split; [easy|]; split; [easy|]; reflexivity). }
  destruct MAIN as [H|[H|[H|[H|Hm]]]]; [auto|auto|auto|auto|subst m].
  destruct I11 as (-> & X1 & X2 & X3). unfold some_pred in X3. cbn [s_wait s_cur] in X3. apply Bool.orb_false_iff in X3. destruct X3 as [X3 X4].
  apply Z.leb_gt in X3.
  assert (LT : List.length (filter gone new) < n).
  { apply Permutation_length in I5. rewrite !map_length in I5. lia. }
  assert (LN : List.length new = n) by (rewrite <- (seq_length n 0), <- I3; now rewrite map_length).
  assert (EX : exists t, In t new /\ gone t = false).
  { rewrite <- LN in LT. clear -LT. induction new as [|t l IH]; cbn in *; [lia|]. destruct (gone t) eqn:Eg; [|exists t; auto].
    cbn in LT. destruct IH as (u & H1 & H2); [lia|]. exists u. auto. }
  destruct EX as ([c t] & Hin & Hg). apply In_nth_error in Hin. destruct Hin as (i & Hi).
  assert (Hi' : nth_error (s_tasks s0 ++ new) (List.length (s_tasks s0) + i) = Some (c, t)).
  { rewrite nth_error_app2 by lia. now replace (List.length (s_tasks s0) + i - List.length (s_tasks s0)) with i by lia. }
  destruct t as [| |r|]; [| | |discriminate].
  - exists (SLStart (List.length (s_tasks s0) + i)). cbn [some_step s_tasks s_tmo]. rewrite Hi'. destruct (tm c); eexists; (split; [reflexivity|]; split; [easy|]; split; [easy|]; reflexivity).
  - exists (SLEnd (List.length (s_tasks s0) + i) st_default). cbn [some_step s_tasks s_tmo]. rewrite Hi'. eexists; (split; [reflexivity|]; split; [easy|]; split; [easy|]; reflexivity).
  - exists (SLCount (List.length (s_tasks s0) + i)). cbn [some_step s_tasks s_main]. rewrite Hi'. eexists; (split; [reflexivity|]; split; [easy|]; split; [easy|]; reflexivity).
Qed.
End One.

(** Termination: every step but the spurious wakeup, the reset and a new call decreases the measure. *)
Definition s_weight (t : nat * stask) : nat := match snd t with SQueued => 9 | SBody => 6 | SFin _ => 3 | SGone => 0 end.
Definition s_rank (n : nat) (m : smain) : nat :=
  match m with
  | SExec k => (n - k) * 10 + n + 4
  | SSleep true => n + 3
  | SEval => n + 2
  | SSleep false => n + 1
  | SMark k => n - k + 1
  | SDone _ | SIdle => 0
  end.
Definition some_measure (n : nat) (s : some_st) : nat := sumf s_weight (s_tasks s) + s_rank n (s_main s).
Definition counts_down (l : slabel) : bool := match l with SLRun _ | SLSpurious | SLReset => false | _ => true end.
Lemma some_measure_step n s lb s' : counts_down lb = true -> some_step n s lb = Some s' -> some_measure n s' < some_measure n s.
Proof.
  intros Hl E. destruct s as [sw sc ts tm m ev]. unfold some_measure.
  destruct lb as [wr| | |i|i r|i|]; try discriminate; cbn [some_step s_main s_evs s_tasks s_wait s_cur s_tmo] in E.
  - destruct m as [|j| |b|j|r]; try discriminate.
    + destruct (Nat.ltb_spec j n) as [H|H]; inversion E; subst s'; cbn [s_tasks s_main]; rewrite ?sumf_app; cbn [sumf s_weight snd s_rank]; [|nia].
      replace (n - j) with (S (n - S j)) by lia. lia.
    + inversion E; subst s'. cbn [s_tasks s_main]. match goal with |- context [if ?q then _ else _] => destruct q end; cbn [s_rank]; lia.
    + destruct b; [|discriminate]. inversion E; subst s'. cbn [s_tasks s_main s_rank]. lia.
    + destruct (Nat.ltb_spec j n) as [H|H]; inversion E; subst s'; cbn [s_tasks s_main s_rank]; lia.
  - destruct (nth_error ts i) as [[c t]|] eqn:En; [|discriminate]. destruct t; try discriminate.
    destruct (tm c); inversion E; subst s'; cbn [s_tasks s_main].
    + destruct (set_nth_split ts i _ (c, SFin st_default) En) as (a & b & -> & _ & ->). rewrite !sumf_app. cbn. lia.
    + destruct (set_nth_split ts i _ (c, SBody) En) as (a & b & -> & _ & ->). rewrite !sumf_app. cbn. lia.
  - destruct (nth_error ts i) as [[c t]|] eqn:En; [|discriminate]. destruct t; try discriminate. inversion E; subst s'; cbn [s_tasks s_main].
    destruct (set_nth_split ts i _ (c, SFin r) En) as (a & b & -> & _ & ->). rewrite !sumf_app. cbn. lia.
  - assert (E' : match nth_error ts i with
      | Some (c, SFin r) => Some (mkS (sw - 1) (st_plus sc r) (set_nth ts i (c, SGone)) tm
           (match m with SSleep b => SSleep (b || (sw - 1 <=? 0)%Z || isErr (st_plus sc r)) | x => x end) (ev ++ [SECount c r]))
      | _ => None end = Some s').
    { destruct m; try exact E. discriminate. }
    clear E. destruct (nth_error ts i) as [[c t]|] eqn:En; [|discriminate]. destruct t as [| |r|]; try discriminate. inversion E'; subst s'; cbn [s_tasks s_main].
    destruct (set_nth_split ts i _ (c, SGone) En) as (a & b & -> & _ & ->). rewrite !sumf_app. cbn [sumf s_weight snd].
    destruct m as [|j| |[|]|j|r0]; cbn [s_rank orb]; try lia. destruct ((sw - 1 <=? 0)%Z || isErr (st_plus sc r)); cbn [s_rank]; lia.
Qed.
Lemma some_bounded n ls : forall s s', forallb counts_down ls = true -> some_steps n s ls = Some s' -> List.length ls <= some_measure n s.
Proof.
  induction ls as [|l ls IH]; intros s s' Hl E; [cbn; lia|]. cbn in Hl, E. apply andb_true_iff in Hl. destruct Hl as [H1 H2].
  destruct (some_step n s l) as [s1|] eqn:E1; [|discriminate]. apply IH in E; [|exact H2]. apply some_measure_step in E1; [|exact H1]. cbn [List.length]. lia.
Qed.
