(** What the caller and the tasks of the static engine know. *)
From Verif Require Import GraphModel GraphSpec TopoProofs StaticModel StaticProofs StatusProofs LeftProofs HbSpec HbProofs StatHbModel.
From Coq Require Import Lia Permutation.
Local Open Scope nat_scope.

Section Stat.
Context (inl : nat -> bool) (g : graph) (mat : list (list nat)) (Hwf : wf g) (Hlay : layering g mat).
Notation SI := (sinv inl g mat).

Lemma layer_unique x i j li lj : nth_error mat i = Some li -> nth_error mat j = Some lj -> In x li -> In x lj -> i = j.
Proof.
  intros Hi Hj Ii Ij. pose proof (mat_nodup g mat Hwf Hlay) as N.
  assert (G : forall i j li lj, i < j -> nth_error mat i = Some li -> nth_error mat j = Some lj -> In x li -> In x lj -> False).
  { clear - N. intros i j li lj L Hi Hj Ii Ij. apply nth_error_split in Hi as (m1 & m2 & -> & <-).
    rewrite nth_error_app2 in Hj by lia. destruct (j - length m1) as [|k] eqn:E; [lia|]. cbn [nth_error] in Hj. apply nth_error_In in Hj.
    rewrite concat_app in N. cbn [concat] in N. apply (proj1 (cnt_nodup _)) with (e := x) in N. rewrite !cnt_app in N.
    assert (0 < cnt x li) by now apply cnt_in. assert (0 < cnt x (concat m2)) by (apply cnt_in, in_concat; eauto). lia. }
  destruct (Nat.lt_trichotomy i j) as [L|[L|L]]; [destruct (G i j li lj L Hi Hj Ii Ij)|exact L|destruct (G j i lj li L Hj Hi Ij Ii)].
Qed.
Lemma path_layers a b : path g a b -> exists i j li lj, nth_error mat i = Some li /\ nth_error mat j = Some lj /\ i < j /\ In a li /\ In b lj.
Proof.
  induction 1 as [a b E|a b c P1 IH1 P2 IH2]; [now apply Hlay|].
  destruct IH1 as (i & j & li & lj & Hi & Hj & L & Ia & Ib). destruct IH2 as (i' & j' & li' & lj' & Hi' & Hj' & L' & Ib' & Ic).
  pose proof (layer_unique _ _ _ _ _ Hj Hi' Ib Ib'). exists i, j', li, lj'. split; [exact Hi|]. split; [exact Hj'|]. split; [lia|]. now split.
Qed.
Lemma joined_no_get d con main : prog inl mat = con ++ main -> joined d con -> ~ In (AGet d) main.
Proof.
  intros Hp J Hin. pose proof (mat_nodup g mat Hwf Hlay) as N. apply (proj1 (cnt_nodup _)) with (e := d) in N.
  destruct (prog_w inl d mat) as (_ & _ & B3 & B4 & _). unfold prog in Hp. rewrite Hp, sumf_app in B3, B4.
  apply (sumf_in (w_get d)) in Hin. cbn [w_get] in Hin. rewrite Nat.eqb_refl in Hin. cbn [b2n] in Hin.
  destruct J as [J|J]; [apply (sumf_in (w_get d)) in J; cbn [w_get] in J|apply (sumf_in (w_mf d)) in J; cbn [w_mf] in J]; rewrite Nat.eqb_refl in J; cbn [b2n] in J; destruct (inl d); lia.
Qed.
Lemma dep_joined s con d e : SI s con -> path g d e -> 0 < sumf (w_start e) con -> joined d con.
Proof.
  intros I P He. destruct (path_layers _ _ P) as (i & j & li & lj & Hi & Hj & L & Id & Ie).
  destruct (barrier inl g mat Hwf Hlay con (s_main s) e i j li lj d (si_prog _ _ _ _ _ I) He Hi Hj L Id Ie) as (c1 & c2 & -> & J). destruct J as [J|J]; [left|right]; apply in_or_app; now left.
Qed.

(** Every end of [d] that the log shows. *)
Definition known (m : hlog) (P : list nat) (d : nat) : Prop := forall i r, at_ m i (NFinish d r) -> In i P.
Record SHI (s : sst) (m : hlog) : Prop := {
  si_call : exists q, m = (0, HNote NCall) :: q;
  si_tr : trace_of m = s_tr s;
  si_thr : forall i t d r, nth_error m i = Some (t, HNote (NFinish d r)) -> inl d = true -> t = 0;
  si_fut : forall d, inl d = false -> known m (kl (know m) (HFut d)) d;
  si_got : forall d, ~ In (AGet d) (s_main s) -> known m (kt (know m) 0) d;
  si_q : forall e, In e (s_queue s) -> In 0 (kl (know m) (HTask e)) /\ forall d, path g d e -> known m (kl (know m) (HTask e)) d;
  si_run : forall e, In e (s_running s) -> In 0 (kt (know m) (S e));
  si_starts : forall j e, at_ m j (NStart e) -> happens_before m 0 j /\ forall d i r, path g d e -> at_ m i (NFinish d r) -> happens_before m i j;
  si_ends : forall j e r, at_ m j (NFinish e r) -> happens_before m 0 j;
  si_ret : forall j st, at_ m j (NRet st) -> s_out s <> None /\ happens_before m 0 j /\ forall i d r, at_ m i (NFinish d r) -> happens_before m i j
}.

Lemma at_snoc m ext i n : at_ (m ++ ext) i n -> at_ m i n \/ exists k t, i = length m + k /\ nth_error ext k = Some (t, HNote n).
Proof.
  intros [t H]. destruct (Nat.lt_ge_cases i (length m)) as [L|L].
  - left. exists t. rewrite nth_error_app1 in H by exact L. exact H.
  - right. exists (i - length m), t. split; [lia|]. rewrite nth_error_app2 in H by exact L. exact H.
Qed.
Lemma at_in_tr m i d r : at_ m i (NFinish d r) -> In (GFinish d r) (trace_of m).
Proof. intros [t H]. apply nth_error_In in H. unfold trace_of. apply in_flat_map. exists (t, HNote (NFinish d r)). split; [exact H|now left]. Qed.

Lemma SHI_init : SHI (s_init inl mat) [(0, HNote NCall)].
Proof.
  assert (N : forall i n, at_ [(0, HNote NCall)] i n -> i = 0 /\ n = NCall) by (intros [|i] n [t H]; [injection H as _ H; auto|destruct i; discriminate H]).
  constructor.
  - now exists [].
  - reflexivity.
  - intros [|i] t d r H; [discriminate H|destruct i; discriminate H].
  - intros d _ i r H. apply N in H as [_ H]. discriminate H.
  - intros d _ i r H. apply N in H as [_ H]. discriminate H.
  - intros e [].
  - intros e [].
  - intros j e H. apply N in H as [_ H]. discriminate H.
  - intros j e r H. apply N in H as [_ H]. discriminate H.
  - intros j st H. apply N in H as [_ H]. discriminate H.
Qed.
Lemma in_remove1 e : forall l l', remove1 e l = Some l' -> In e l /\ incl l' l.
Proof.
  induction l as [|x l IH]; intros l' H; cbn [remove1] in H; [discriminate|]. destruct (Nat.eqb_spec x e) as [->|].
  - injection H as <-. split; [now left|intros y Hy; now right].
  - destruct (remove1 e l) as [q|]; [|discriminate]. injection H as <-. destruct (IH q eq_refl) as [A B]. split; [now right|]. intros y [->|Hy]; [now left|right; auto].
Qed.
Lemma known_mono m ext P P' d : known m P d -> incl P P' -> (forall k t r, nth_error ext k <> Some (t, HNote (NFinish d r))) -> known (m ++ ext) P' d.
Proof. intros K I N i r H. apply I. destruct (at_snoc _ _ _ _ H) as [A|(k & t & _ & E)]; [eapply K; exact A|now apply N in E]. Qed.

(** A step that shows no end of an element. *)
Lemma SHI_plain s m s' ext : SHI s m -> s_tr s' = s_tr s ++ trace_of ext ->
  (forall k t d r, nth_error ext k <> Some (t, HNote (NFinish d r))) ->
  (forall t d, ~ In (t, HStore (HFut d)) ext) -> (forall t e, In e (s_queue s) -> ~ In (t, HStore (HTask e)) ext) ->
  (forall d, ~ In (AGet d) (s_main s') -> In (AGet d) (s_main s) -> inl d = false -> incl (kl (know m) (HFut d)) (kt (know (m ++ ext)) 0)) ->
  (forall d, In (AGet d) (s_main s) -> inl d = false) ->
  (forall e, In e (s_queue s') -> In e (s_queue s) \/ incl (kt (know m) 0) (kl (know (m ++ ext)) (HTask e)) /\ forall d, path g d e -> ~ In (AGet d) (s_main s)) ->
  (forall e, In e (s_running s') -> In e (s_running s) \/ In 0 (kt (know (m ++ ext)) (S e))) ->
  (forall k t e, nth_error ext k = Some (t, HNote (NStart e)) -> exists P, incl P (kt (know (m ++ firstn k ext)) t) /\ In 0 P /\ forall d, path g d e -> known m P d) ->
  (forall k t st, nth_error ext k = Some (t, HNote (NRet st)) -> t = 0 /\ s_out s' <> None /\ forall d i r, at_ m i (NFinish d r) -> ~ In (AGet d) (s_main s)) ->
  (s_out s <> None -> s_out s' <> None) ->
  SHI s' (m ++ ext).
Proof.
  intros [Ic It Ith If Ig Iq Ir Is Ie Ire] Etr N Nf Nt Hg Hinl Hq Hr Hst Hret Ho.
  assert (Z0 : In 0 (kt (know m) 0)) by (destruct Ic as [q ->]; apply (know_own _ 0 0 (HNote NCall)); reflexivity).
  assert (Cut : forall k t a, nth_error ext k = Some (t, a) -> nth_error ((m ++ firstn k ext) ++ skipn k ext) (length m + k) = Some (t, a) /\ (m ++ firstn k ext) ++ skipn k ext = m ++ ext /\ length (m ++ firstn k ext) <= length m + k).
  { intros k t a E. assert (k < length ext) by (apply nth_error_Some; congruence). rewrite <- app_assoc, firstn_skipn. split; [rewrite nth_error_app2 by lia; replace (length m + k - length m) with k by lia; exact E|].
    split; [reflexivity|]. rewrite app_length, firstn_length. lia. }
  constructor.
  - destruct Ic as [q ->]. exists (q ++ ext). reflexivity.
  - rewrite trace_of_app, It, Etr. reflexivity.
  - intros i t d r H Hd. destruct (at_snoc m ext i (NFinish d r)) as [[t' A]|(k & t' & _ & E)]; [exists t; exact H| |now apply N in E].
    assert (E' := nth_old m ext i _ A). rewrite E' in H. injection H as ->. eapply Ith; eassumption.
  - intros d Hd. eapply known_mono; [apply If; exact Hd| |intros k t r; apply N]. apply know_l. intros t. apply Nf.
  - intros d Hd. destruct (in_dec (fun a b : sact => ltac:(decide equality; apply Nat.eq_dec)) (AGet d) (s_main s)) as [Hin|Hin].
    + pose proof (Hinl d Hin) as Hi. eapply known_mono; [apply If; exact Hi|apply Hg; assumption|intros k t r; apply N].
    + eapply known_mono; [apply Ig; exact Hin|apply know_t|intros k t r; apply N].
  - intros e He. destruct (Hq e He) as [H|[H1 H2]].
    + destruct (Iq e H) as [A B]. assert (C : incl (kl (know m) (HTask e)) (kl (know (m ++ ext)) (HTask e))) by (apply know_l; intros t; now apply Nt).
      split; [now apply C|]. intros d Hd. eapply known_mono; [apply B; exact Hd|exact C|intros k t r; apply N].
    + split; [now apply H1|]. intros d Hd. eapply known_mono; [apply Ig; now apply H2|exact H1|intros k t r; apply N].
  - intros e He. destruct (Hr e He) as [H|H]; [|exact H]. apply know_t. now apply Ir.
  - intros j e Hj. destruct (at_snoc _ _ _ _ Hj) as [A|(k & t & -> & E)].
    + destruct (Is j e A) as [B C]. split; [now apply hb_app|]. intros d i r Hd Hi. apply hb_app. destruct (at_snoc _ _ _ _ Hi) as [A'|(k & t & _ & E)]; [eapply C; eassumption|now apply N in E].
    + destruct (Hst k t e E) as (P & HP & H0 & Hk). destruct (Cut k t _ E) as (E2 & E3 & E4).
      assert (G : forall i, In i P -> happens_before (m ++ ext) i (length m + k)). { intros i Hi. rewrite <- E3. eapply know_hb; [apply HP; exact Hi|exact E4|exact E2]. }
      split; [now apply G|]. intros d i r Hd Hi. apply G. destruct (at_snoc _ _ _ _ Hi) as [A'|(k' & t' & _ & E')]; [eapply Hk; eassumption|now apply N in E'].
  - intros j e r Hj. destruct (at_snoc _ _ _ _ Hj) as [A|(k & t & _ & E)]; [apply hb_app; eapply Ie; exact A|now apply N in E].
  - intros j st Hj. destruct (at_snoc _ _ _ _ Hj) as [A|(k & t & -> & E)].
    + destruct (Ire j st A) as (B & C & D). split; [auto|]. split; [now apply hb_app|]. intros i d r Hi. apply hb_app. destruct (at_snoc _ _ _ _ Hi) as [A'|(k & t & _ & E)]; [eapply D; exact A'|now apply N in E].
    + destruct (Hret k t st E) as (-> & B & C). split; [exact B|]. destruct (Cut k 0 _ E) as (E2 & E3 & E4).
      assert (G : forall i, In i (kt (know m) 0) -> happens_before (m ++ ext) i (length m + k)). { intros i Hi. rewrite <- E3. eapply know_hb; [apply know_t; exact Hi|exact E4|exact E2]. }
      split; [now apply G|]. intros i d r Hi. apply G. destruct (at_snoc _ _ _ _ Hi) as [A'|(k' & t' & _ & E')]; [|now apply N in E']. eapply Ig; [eapply C; exact A'|exact A'].
Qed.

(** An element ends, on the caller or on a worker. *)
Lemma SHI_finish s m s' e r t rest : SHI s m -> s_tr s' = s_tr s ++ [GFinish e r] -> s_main s' = s_main s \/ s_main s = AMacroFinish e :: s_main s' -> s_queue s' = s_queue s -> incl (s_running s') (s_running s) ->
  (t = 0 /\ inl e = true /\ rest = [] \/ t = S e /\ inl e = false /\ rest = [(S e, HStore (HFut e))] /\ In (AGet e) (s_main s') /\ In e (s_running s)) ->
  (forall v, ~ In (GFinish e v) (s_tr s)) -> (forall x, In x (s_queue s) \/ In (GStart x) (s_tr s) -> ~ path g e x) -> s_out s = None ->
  SHI s' (m ++ (t, HNote (NFinish e r)) :: rest).
Proof.
  intros [Ic It Ith If Ig Iq Ir Is Ie Ire] Etr Em Eq Er Ht Hf Hp Ho.
  assert (Z0 : In 0 (kt (know m) 0)) by (destruct Ic as [q ->]; apply (know_own _ 0 0 (HNote NCall)); reflexivity).
  set (ext := (t, HNote (NFinish e r)) :: rest).
  assert (Rn : forall k u n, nth_error ext k = Some (u, HNote n) -> k = 0 /\ u = t /\ n = NFinish e r).
  { intros [|k] u n E; [injection E as <- <-; auto|]. cbn [ext nth_error] in E. destruct Ht as [(_ & _ & ->)|(_ & _ & -> & _)]; destruct k as [|k]; try discriminate E; destruct k; discriminate E. }
  assert (Old : forall i d v, at_ (m ++ ext) i (NFinish d v) -> at_ m i (NFinish d v) /\ d <> e \/ d = e /\ v = r /\ i = length m).
  { intros i d v H. destruct (at_snoc _ _ _ _ H) as [A|(k & u & -> & E)].
    - left. split; [exact A|]. intros ->. apply at_in_tr in A. rewrite It in A. now apply Hf in A.
    - right. destruct (Rn _ _ _ E) as (-> & _ & X). injection X as -> ->. repeat split. lia. }
  assert (K : forall d P P', d <> e -> incl P P' -> known m P d -> known (m ++ ext) P' d).
  { intros d P P' Hd I H i v Hi. destruct (Old _ _ _ Hi) as [[A _]|[A _]]; [|contradiction]. apply I. eapply H. exact A. }
  assert (St : forall u l, In (u, HStore l) ext -> l = HFut e).
  { intros u l [H|H]; [discriminate H|]. destruct Ht as [(_ & _ & ->)|(_ & _ & -> & _)]; [destruct H|]. destruct H as [H|[]]. now injection H as _ <-. }
  assert (Hl : nth_error (m ++ ext) (length m) = Some (t, HNote (NFinish e r))) by (rewrite nth_error_app2, Nat.sub_diag by lia; reflexivity).
  assert (Tr : trace_of ext = [GFinish e r]). { unfold ext. destruct Ht as [(_ & _ & ->)|(_ & _ & -> & _)]; reflexivity. }
  constructor.
  - destruct Ic as [q ->]. exists (q ++ ext). reflexivity.
  - now rewrite trace_of_app, It, Etr, Tr.
  - intros i u d v H Hd. destruct (Old i d v) as [[[u' A] _]|(-> & -> & ->)]; [now exists u| |].
    + pose proof (nth_old m ext i _ A) as E. rewrite E in H. injection H as ->. eapply Ith; eassumption.
    + rewrite Hl in H. injection H as <-. destruct Ht as [(X & _)|(_ & X & _)]; [exact X|congruence].
  - intros d Hd. destruct (Nat.eq_dec d e) as [->|Hne].
    + intros i v Hi. destruct (Old _ _ _ Hi) as [[_ A]|(_ & -> & ->)]; [congruence|]. destruct Ht as [(_ & X & _)|(-> & _ & Er2 & _)]; [congruence|].
      unfold ext. rewrite Er2, know_app. cbn [kfold]. unfold kstep at 1. cbn [fst snd kl]. rewrite set_l_eq. right. apply kstep_own.
    + eapply K; [exact Hne| |now apply If]. apply know_l. intros u H. apply St in H. congruence.
  - intros d Hd. destruct (Nat.eq_dec d e) as [->|Hne].
    + destruct Ht as [(-> & X & _)|(_ & _ & _ & X & _)]; [|contradiction]. intros i v Hi. destruct (Old _ _ _ Hi) as [[_ A]|(_ & -> & ->)]; [congruence|]. eapply know_own. exact Hl.
    + eapply K; [exact Hne|apply know_t|]. apply Ig. intros H. apply Hd. destruct Em as [-> |Em]; [exact H|]. rewrite Em in H. destruct H as [H|H]; [discriminate H|exact H].
  - intros x Hx. rewrite Eq in Hx. destruct (Iq x Hx) as [A B]. assert (C : incl (kl (know m) (HTask x)) (kl (know (m ++ ext)) (HTask x))) by (apply know_l; intros u H; apply St in H; discriminate H).
    split; [now apply C|]. intros d Hd. eapply K; [|exact C|now apply B]. intros ->. revert Hd. apply Hp. now left.
  - intros x Hx. apply know_t. apply Ir. now apply Er.
  - intros j x Hj. destruct (at_snoc _ _ _ _ Hj) as [A|(k & u & _ & E)]; [|destruct (Rn _ _ _ E) as (_ & _ & X); discriminate X].
    destruct (Is j x A) as [B C]. split; [now apply hb_app|]. intros d i v Hd Hi. destruct (Old _ _ _ Hi) as [[D _]|(-> & _ & _)]; [apply hb_app; eapply C; eassumption|].
    exfalso. revert Hd. apply Hp. right. rewrite <- It. destruct A as [u A]. apply nth_error_In in A. unfold trace_of. apply in_flat_map. exists (u, HNote (NStart x)). split; [exact A|now left].
  - intros j x v Hj. destruct (Old _ _ _ Hj) as [[A _]|(-> & -> & ->)]; [apply hb_app; eapply Ie; exact A|].
    eapply know_hb; [|reflexivity|exact Hl]. destruct Ht as [(-> & _)|(-> & _ & _ & _ & X)]; [exact Z0|now apply Ir].
  - intros j st Hj. destruct (at_snoc _ _ _ _ Hj) as [A|(k & u & _ & E)]; [|destruct (Rn _ _ _ E) as (_ & _ & X); discriminate X]. destruct (Ire j st A) as [B _]. congruence.
Qed.

Lemma sinv_next s con : SI s con -> forall l s', sstep s l = Some s' -> exists con', SI s' con'.
Proof. intros I l s' H. exact (sinv_step inl g mat Hwf Hlay s con l s' I H). Qed.
Lemma once_fin s con e v w tr : SI s con -> s_tr s = tr ++ [GFinish e v] -> ~ In (GFinish e w) tr.
Proof.
  intros I E H. destruct (sinv_once inl g mat Hwf Hlay s con I) as [_ N]. rewrite E, finishes_app, map_app in N. apply in_finishes in H. apply (in_map fst) in H. cbn [fst] in H.
  apply (proj1 (cnt_nodup _)) with (e := e) in N. rewrite cnt_app in N. apply cnt_in in H. assert (0 < cnt e (map fst (finishes [GFinish e v]))) by (apply cnt_in; now left). lia.
Qed.
Lemma dep_fin s con d e : SI s con -> path g d e -> In e (s_queue s) \/ In (GStart e) (s_tr s) -> exists v, In (GFinish d v) (s_tr s).
Proof.
  intros I P H. destruct (si_join _ _ _ _ _ I d) as (v & Hv & _); [|now exists v]. apply (dep_joined s con d e I P). apply (sinv_started inl g mat s con e I).
  destruct H as [H|H]; [apply cnt_in in H; lia|apply in_starts, cnt_in in H; lia].
Qed.
Lemma get_not_inl s con d : SI s con -> In (AGet d) (s_main s) -> inl d = false.
Proof.
  intros I H. destruct (prog_w inl d mat) as (_ & _ & _ & B & _). pose proof (si_prog _ _ _ _ _ I) as Hp. unfold prog in Hp. rewrite Hp, sumf_app in B.
  apply (sumf_in (w_get d)) in H. cbn [w_get] in H. rewrite Nat.eqb_refl in H. cbn [b2n] in H. destruct (inl d); [lia|reflexivity].
Qed.
(** At the check of a layer, and at the end, the result of every element that has ended was taken. *)
Lemma check_no_get s con d v : SI s con -> s_main s = [] \/ (exists m, s_main s = ACheck :: m) -> In (GFinish d v) (s_tr s) -> ~ In (AGet d) (s_main s).
Proof.
  intros I [E|[m E]] H; [rewrite E; intros []|]. intros Hin. pose proof (si_prog _ _ _ _ _ I) as Hp. unfold prog in Hp. rewrite E in Hp.
  destruct (at_check inl mat con m Hp) as (m1 & m2 & _ & E1).
  assert (W : forall f : sact -> nat, f ACheck = 0 -> sumf f con = sumf f (static_prog inl m1)) by (intros f Hf; rewrite <- E1, sumf_app; cbn [sumf]; lia).
  pose proof (W (w_start d) eq_refl) as W1. pose proof (W (w_get d) eq_refl) as W2. destruct (prog_w inl d m1) as (A1 & _ & _ & A4 & _). destruct (prog_w inl d mat) as (B1 & _ & _ & B4 & _).
  rewrite Hp, sumf_app in B4. rewrite E in Hin. apply (sumf_in (w_get d)) in Hin. cbn [w_get] in Hin. rewrite Nat.eqb_refl in Hin. cbn [b2n] in Hin.
  pose proof (mat_nodup g mat Hwf Hlay) as N. apply (proj1 (cnt_nodup _)) with (e := d) in N.
  assert (St : 0 < sumf (w_start d) con).
  { apply (sinv_started inl g mat s con d I). apply in_finishes, (in_map fst), cnt_in in H. cbn [fst] in H. pose proof (si_fin _ _ _ _ _ I d) as F. pose proof (si_prog _ _ _ _ _ I) as Hp'. unfold prog in Hp'.
    destruct (prog_w inl d mat) as (_ & C2 & C3 & _). rewrite Hp', sumf_app in C2, C3. rewrite E in F, C2, C3. pose proof (W (w_ms d) eq_refl) as W3. pose proof (W (w_mf d) eq_refl) as W4.
    destruct (prog_w inl d m1) as (_ & D2 & D3 & _). lia. }
  destruct (inl d); lia.
Qed.

Lemma SHI_step s con m l s' : SI s con -> SHI s m -> sstep s l = Some s' -> SHI s' (m ++ stat_mem s l).
Proof.
  intros I H E. destruct (sinv_next s con I l s' E) as [con' I'].
  assert (Quiet : s_queue s <> [] \/ s_running s <> [] -> s_out s = None).
  { intros Q. destruct (s_out s) eqn:O; [|reflexivity]. destruct (static_quiet inl g mat Hwf Hlay s con I) as (A & B & _); [congruence|]. tauto. }
  assert (Gi : forall d, In (AGet d) (s_main s) -> inl d = false) by (intros d; apply (get_not_inl s con d I)).
  assert (Fresh : forall e v, s_tr s' = s_tr s ++ [GFinish e v] -> (forall w, ~ In (GFinish e w) (s_tr s)) /\ forall x, In x (s_queue s) \/ In (GStart x) (s_tr s) -> ~ path g e x).
  { intros e v Et. assert (A : forall w, ~ In (GFinish e w) (s_tr s)) by (intros w; apply (once_fin s' con' e v w _ I' Et)). split; [exact A|]. intros x Hx P. destruct (dep_fin s con e x I P Hx) as [w Hw]. now apply A in Hw. }
  destruct l as [r|e|e r]; cbn [sstep stat_mem] in *.
  - destruct (s_out s) eqn:O; [discriminate|]. unfold caller_mem. destruct (s_main s) as [|a mn] eqn:Em.
    + injection E as <-. eapply SHI_plain; [exact H|cbn; now rewrite app_nil_r|..]; rewrite ?Em.
      all: cbn [s_main s_queue s_running s_out map]; try (intros; contradiction).
      * intros [|[|k]] t d w X; discriminate X.
      * intros t d [X|[]]; discriminate X.
      * intros t e _ [X|[]]; discriminate X.
      * intros e He. now left.
      * intros e He. now left.
      * intros [|[|k]] t e X; discriminate X.
      * intros [|[|k]] t st X; try discriminate X. injection X as <- _. split; [reflexivity|]. split; [discriminate|]. intros d i w _ [].
    + destruct a as [e|e|e|e|].
      * injection E as <-. eapply SHI_plain; [exact H|cbn; now rewrite app_nil_r|..]; rewrite ?Em; cbn [s_main s_queue s_running s_out map].
        -- intros [|[|k]] t d w X; discriminate X.
        -- intros t d [X|[]]; discriminate X.
        -- intros t x Hx [X|[]]. injection X as _ ->. pose proof (si_cons _ _ _ _ _ I x) as C. rewrite Em in C. cbn [sumf w_start] in C. rewrite Nat.eqb_refl in C. cbn [b2n] in C.
           pose proof (mat_nodup g mat Hwf Hlay) as N. apply (proj1 (cnt_nodup _)) with (e := x) in N. apply cnt_in in Hx. lia.
        -- intros d N1 N2. exfalso. apply N1. destruct N2 as [N2|N2]; [discriminate N2|exact N2].
        -- exact Gi.
        -- intros x Hx. apply in_app_or in Hx. destruct Hx as [Hx|[<-|[]]]; [now left|right]. split.
           ++ intros i Hi. rewrite know_snoc. unfold kstep. cbn [fst snd kl]. rewrite set_l_eq. now right.
           ++ intros d P. assert (J : joined d con').
              { apply (dep_joined _ con' d e I' P). apply (sinv_started inl g mat _ con' e I'). cbn [s_queue s_tr]. rewrite cnt_app. assert (0 < cnt e [e]) by (apply cnt_in; now left). lia. }
              pose proof (joined_no_get d con' _ (si_prog _ _ _ _ _ I') J) as N. cbn [s_main] in N. intros [X|X]; [discriminate X|contradiction].
        -- intros x Hx. now left.
        -- intros [|[|k]] t x X; discriminate X.
        -- intros [|[|k]] t x X; discriminate X.
        -- congruence.
      * injection E as <-. eapply SHI_plain; [exact H|reflexivity|..]; rewrite ?Em; cbn [s_main s_queue s_running s_out map].
        -- intros [|[|k]] t d w X; discriminate X.
        -- intros t d [X|[]]; discriminate X.
        -- intros t x Hx [X|[]]; discriminate X.
        -- intros d N1 N2. exfalso. apply N1. destruct N2 as [N2|N2]; [discriminate N2|exact N2].
        -- exact Gi.
        -- intros x Hx. now left.
        -- intros x Hx. now left.
        -- intros [|[|k]] t x X; try discriminate X. injection X as <- <-. cbn [firstn]. rewrite app_nil_r. exists (kt (know m) 0). split; [intros i Hi; exact Hi|]. split.
           ++ destruct (si_call _ _ H) as [q ->]. apply (know_own _ 0 0 (HNote NCall)). reflexivity.
           ++ intros d P. apply (si_got _ _ H). rewrite Em. assert (J : joined d con').
              { apply (dep_joined _ con' d e I' P). apply (sinv_started inl g mat _ con' e I'). cbn [s_queue s_tr]. rewrite starts_app, cnt_app. assert (0 < cnt e (starts [GStart e])) by (apply cnt_in; now left). lia. }
              pose proof (joined_no_get d con' _ (si_prog _ _ _ _ _ I') J) as N. cbn [s_main] in N. intros [X|X]; [discriminate X|contradiction].
        -- intros [|[|k]] t x X; discriminate X.
        -- congruence.
      * injection E as <-. destruct (Fresh e r eq_refl) as [F1 F2]. cbn [map]. eapply (SHI_finish s m _ e r 0 []); [exact H|reflexivity|right; exact Em|reflexivity|intros x Hx; exact Hx| |exact F1|exact F2|exact O].
        left. split; [reflexivity|]. split; [|reflexivity]. destruct (prog_w inl e mat) as (_ & _ & B & _). pose proof (si_prog _ _ _ _ _ I) as Hp. unfold prog in Hp. rewrite Hp, sumf_app, Em in B. cbn [sumf w_mf] in B. rewrite Nat.eqb_refl in B. cbn [b2n] in B. destruct (inl e); [reflexivity|lia].
      * destruct (lookup e (s_futs s)) as [v|]; [|discriminate]. injection E as <-. eapply SHI_plain; [exact H|cbn; now rewrite app_nil_r|..]; rewrite ?Em; cbn [s_main s_queue s_running s_out map].
        -- intros [|[|k]] t d w X; discriminate X.
        -- intros t d [X|[]]; discriminate X.
        -- intros t x Hx [X|[]]; discriminate X.
        -- intros d N1 N2 Hd. destruct N2 as [N2|N2]; [|contradiction]. injection N2 as ->. intros i Hi. rewrite know_snoc. unfold kstep. cbn [fst snd kt]. rewrite set_t_eq. right. apply in_or_app. now left.
        -- exact Gi.
        -- intros x Hx. now left.
        -- intros x Hx. now left.
        -- intros [|[|k]] t x X; discriminate X.
        -- intros [|[|k]] t x X; discriminate X.
        -- congruence.
      * assert (Ret : forall k t st, nth_error [(0, HNote (NRet (s_stat s)))] k = Some (t, HNote (NRet st)) -> t = 0 /\ forall d i w, at_ m i (NFinish d w) -> ~ In (AGet d) (ACheck :: mn)).
        { intros [|[|k]] t st X; try discriminate X. injection X as <- _. split; [reflexivity|]. intros d i w Hi. rewrite <- Em. apply (check_no_get s con d w I); [right; now exists mn|]. rewrite <- (si_tr _ _ H). eapply at_in_tr. exact Hi. }
        destruct (check_status (s_stat s)) as [|v|m'] eqn:Ck; injection E as <-; (eapply SHI_plain; [exact H|cbn; now rewrite app_nil_r|..]; rewrite ?Em; cbn [s_main s_queue s_running s_out map]).
        all: try exact Gi; try solve [intros x Hx; now left|congruence|intros t d [X|[]]; discriminate X|intros t x Hx [X|[]]; discriminate X|intros t d []|intros t x Hx []|intros [|[|k]] t d w X; discriminate X|intros [|[|k]] t x X; discriminate X].
        all: try (intros d N1 N2; exfalso; apply N1; destruct N2 as [N2|N2]; [discriminate N2|first [exact N2|now right]]).
        all: try solve [intros k t st X; destruct (Ret k t st X) as [R1 R2]; split; [exact R1|split; [discriminate|exact R2]]].
        all: try (intros _; discriminate).
  - destruct (remove1 e (s_queue s)) as [q|] eqn:R; [|discriminate]. injection E as <-. destruct (in_remove1 _ _ _ R) as [Hq Hi]. assert (O : s_out s = None) by (apply Quiet; left; intros X; rewrite X in Hq; destruct Hq).
    destruct (si_q _ _ H e Hq) as [Q0 Qd].
    eapply SHI_plain; [exact H|reflexivity|..]; cbn [s_main s_queue s_running s_out].
    + intros [|[|[|k]]] t d w X; discriminate X.
    + intros t d [X|[X|[]]]; discriminate X.
    + intros t x Hx [X|[X|[]]]; discriminate X.
    + intros d N1 N2. contradiction.
    + exact Gi.
    + intros x Hx. left. now apply Hi.
    + intros x [<-|Hx]; [right|now left]. change ([(S e, HLoad (HTask e)); (S e, HNote (NStart e))]) with ([(S e, HLoad (HTask e))] ++ [(S e, HNote (NStart e))]). rewrite app_assoc. apply know_t.
      rewrite know_snoc. unfold kstep. cbn [fst snd kt]. rewrite set_t_eq. right. apply in_or_app. now left.
    + intros [|[|[|k]]] t x X; try discriminate X. injection X as <- <-. cbn [firstn]. exists (kl (know m) (HTask e)). split; [|split; [exact Q0|exact Qd]].
      intros i Hin. rewrite know_snoc. unfold kstep. cbn [fst snd kt]. rewrite set_t_eq. right. apply in_or_app. now left.
    + intros [|[|[|k]]] t x X; discriminate X.
    + auto.
  - destruct (remove1 e (s_running s)) as [q|] eqn:R; [|discriminate]. injection E as <-. destruct (in_remove1 _ _ _ R) as [Hq Hi]. assert (O : s_out s = None) by (apply Quiet; right; intros X; rewrite X in Hq; destruct Hq).
    destruct (Fresh e r eq_refl) as [F1 F2]. eapply SHI_finish; [exact H|reflexivity|now left|reflexivity|exact Hi| |exact F1|exact F2|exact O].
    right. split; [reflexivity|]. assert (Ne : inl e = false) by (apply (si_inl _ _ _ _ _ I); right; now apply cnt_in). split; [exact Ne|]. split; [reflexivity|]. cbn [s_main]. split; [|exact Hq].
    assert (Nj : ~ joined e con) by (intros J; destruct (si_join _ _ _ _ _ I e J) as (v & Hv & _); now apply F1 in Hv).
    pose proof (si_prog _ _ _ _ _ I) as Hp. unfold prog in Hp. destruct (prog_w inl e mat) as (B1 & B2 & B3 & B4 & _). rewrite Ne in *.
    assert (Hin : 0 < cnt e (concat mat)). { pose proof (si_cons _ _ _ _ _ I e) as C. pose proof (si_fin _ _ _ _ _ I e) as F. apply cnt_in in Hq. rewrite Hp, sumf_app in B2, B3. lia. }
    rewrite Hp in B4. assert (G : exists a, In a (con ++ s_main s) /\ 0 < w_get e a) by (apply sumf_pos; lia). destruct G as (a & Ha & Hw). destruct a as [x|x|x|x|]; cbn [w_get] in Hw; try lia. destruct (Nat.eqb_spec x e) as [->|]; [|cbn in Hw; lia].
    apply in_app_or in Ha. destruct Ha as [Ha|Ha]; [|exact Ha]. exfalso. apply Nj. now left.
Qed.
Lemma shrun_SHI : forall ls s con m h, SI s con -> SHI s m -> shrun (s, m) ls = Some h -> (exists con', SI (fst h) con') /\ SHI (fst h) (snd h).
Proof.
  induction ls as [|l ls IH]; intros s con m h I H E; cbn [shrun] in E; [injection E as <-; eauto|].
  unfold shstep in E. cbn [fst snd] in E. destruct (sstep s l) as [s'|] eqn:E1; [|discriminate]. destruct (sinv_next s con I l s' E1) as [con' I'].
  eapply IH; [exact I'| |exact E]. now apply (SHI_step s con m l s').
Qed.
End Stat.
(** Every run of StaticModel can be logged. *)
Lemma srun_shrun : forall ls s m s', srun s ls = Some s' -> exists m', shrun (s, m) ls = Some (s', m ++ m').
Proof.
  induction ls as [|l ls IH]; intros s m s' E; cbn [srun shrun] in *; [injection E as <-; exists []; now rewrite app_nil_r|].
  destruct (sstep s l) as [s1|] eqn:E1; [|discriminate]. unfold shstep. cbn [fst snd]. rewrite E1. destruct (IH s1 (m ++ stat_mem s l) s' E) as [m' E2]. exists (stat_mem s l ++ m'). rewrite app_assoc. exact E2.
Qed.
