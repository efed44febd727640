(** C123: dependencies order memory. *)
From Verif Require Import GraphModel GraphSpec TopoProofs StaticModel StaticProofs StatusProofs DynModel DynInv DynProofs DynTerm DynProps HbSpec HbModel HbProofs.
From Coq Require Import Lia.
Local Open Scope nat_scope.

(** [hexec c ls h]: the schedule [ls] (as in C06) leads to [h], whose log holds what the threads have done since the last call of run. *)
Definition hexec (c : dcfg) (ls : list dlabel) (h : hst) : Prop := hrun c (h_init c) ls = Some h /\ disciplined c (d_init c) ls.

Lemma hexec_HI c ls h : wf (c_g c) -> acyclic (c_g c) -> hexec c ls h -> HI c h.
Proof.
  intros Hwf Ha [H D]. pose proof (hrun_drun c _ _ _ H) as Hd. destruct (hrun_HI c Hwf Ha ls (h_init c) (h_s h) (HI_init c) D Hd) as [h' [E [_ HI']]].
  rewrite H in E. injection E as <-. exact HI'.
Qed.
Lemma hexec_nodup c ls h : wf (c_g c) -> acyclic (c_g c) -> hexec c ls h -> NoDup (map fst (finishes (trace_of (h_log h)))).
Proof.
  intros Hwf Ha H. pose proof (hexec_HI c ls h Hwf Ha H) as I. rewrite (trace_eq c h I). apply (inv_once c _ (hi_inv c h I)).
Qed.
Lemma pre_no c h : HI c h -> (exists j n, at_ (h_log h) j n /\ n <> NCall /\ n <> NRead /\ n <> NWrite) -> exists b, Run c b h.
Proof.
  intros I [j [n [[t Hn] [N1 [N2 N3]]]]]. destruct (hi_phase c h I) as [[_ P]|[_ R]]; [|exact R].
  destruct (P _ _ _ Hn) as [_ [X|[X|X]]]; contradiction.
Qed.

(** The log tells of the elements exactly what happens in the run, and every execution of C06 has one. *)
Theorem C123_logged : forall c ls s, wf (c_g c) -> acyclic (c_g c) -> exec c ls s ->
  exists h, hexec c ls h /\ h_s h = s /\ trace_of (h_log h) = trace s.
Proof.
  intros c ls s Hwf Ha [H D]. destruct (hrun_HI c Hwf Ha ls (h_init c) s (HI_init c) D H) as [h [E [Es I]]].
  exists h. split; [split; assumption|]. split; [exact Es|]. rewrite (trace_eq c h I), Es. reflexivity.
Qed.
Print Assumptions C123_logged.

(** * C123 *)
(** Whatever an element did, up to its end, happens before the start of every element that depends on it, directly or not - in every run, also one in which something fails. *)
Theorem C123_order : forall c ls h a b i j r, wf (c_g c) -> acyclic (c_g c) -> hexec c ls h ->
  path (c_g c) a b -> at_ (h_log h) i (NFinish a r) -> at_ (h_log h) j (NStart b) -> happens_before (h_log h) i j.
Proof.
  intros c ls h a b i j r Hwf Ha H Hp Hi Hj. pose proof (hexec_HI c ls h Hwf Ha H) as I. pose proof (hexec_nodup c ls h Hwf Ha H) as N.
  destruct (pre_no c h I) as [bb [C _]]; [exists j, (NStart b); split; [exact Hj|repeat split; discriminate]|].
  destruct (co_start _ _ _ _ _ C j b Hj a Hp) as [i' [r' [Hi' Hb]]]. rewrite (finish_unique (h_log h) a i i' r r' N Hi Hi'). exact Hb.
Qed.
Print Assumptions C123_order.

(** What the caller did before it called run happens before everything the elements do. *)
Theorem C123_call : forall c ls h e i j n, wf (c_g c) -> acyclic (c_g c) -> hexec c ls h ->
  at_ (h_log h) i NCall -> n = NStart e \/ (exists r, n = NFinish e r) -> at_ (h_log h) j n -> happens_before (h_log h) i j.
Proof.
  intros c ls h e i j n Hwf Ha H Hi Hn Hj. pose proof (hexec_HI c ls h Hwf Ha H) as I.
  destruct (pre_no c h I) as [b [C _]]; [exists j, n; split; [exact Hj|destruct Hn as [->|[r ->]]; repeat split; discriminate]|].
  assert (Hc : called (h_log h)). { destruct H as [H _]. eapply hrun_called; [| |exact H]; [left; reflexivity|intros _; repeat split; reflexivity]. }
  destruct Hc as [E|[q [E Hq]]]; [destruct Hi as [t Hi]; rewrite E in Hi; destruct i; discriminate Hi|].
  destruct i as [|i]; [|destruct Hi as [t Hi]; rewrite E in Hi; cbn [nth_error] in Hi; apply nth_error_In in Hi; destruct (Hq t Hi)].
  apply (co_notes _ _ _ _ _ C j n 0 (HNote NCall)); [exact Hj| |apply (co_b0 _ _ _ _ _ C)|rewrite E; reflexivity].
  destruct (Nat.lt_ge_cases j b) as [L|L]; [|exact L]. destruct Hj as [t Hj].
  destruct (co_before _ _ _ _ _ C j n t L Hj) as [_ [X|[X|X]]]; destruct Hn as [->|[r ->]]; discriminate X.
Qed.
Print Assumptions C123_call.

(** When run returns without an error, everything the elements did happens before the return: the caller sees all of it. *)
Theorem C123_return : forall c ls h j st, wf (c_g c) -> acyclic (c_g c) -> hexec c ls h ->
  at_ (h_log h) j (NRet st) -> (0 <= code st)%Z ->
  (forall e, In e (els (c_g c)) -> exists i r, at_ (h_log h) i (NFinish e r)) /\
  (forall e i r, In e (els (c_g c)) -> at_ (h_log h) i (NFinish e r) -> happens_before (h_log h) i j).
Proof.
  intros c ls h j st Hwf Ha H Hj Hst. pose proof (hexec_HI c ls h Hwf Ha H) as I. pose proof (hexec_nodup c ls h Hwf Ha H) as N.
  destruct (pre_no c h I) as [b [C _]]; [exists j, (NRet st); split; [exact Hj|repeat split; discriminate]|].
  assert (Hs : isErr st = false) by (apply isErr_false; exact Hst).
  split.
  - intros e He. destruct (co_ret _ _ _ _ _ C j st Hj Hs e He) as [i [r [Hi _]]]. eauto.
  - intros e i r He Hi. destruct (co_ret _ _ _ _ _ C j st Hj Hs e He) as [i' [r' [Hi' Hb]]]. rewrite (finish_unique (h_log h) e i i' r r' N Hi Hi'). exact Hb.
Qed.
Print Assumptions C123_return.

(** The shared status is a plain object that threads read without the lock under which it is written. As long as no element reports an error there is no data race on it.
    Missing: with an error there is one, see below. *)
Theorem C123_status_partial : forall c ls h i j, wf (c_g c) -> acyclic (c_g c) -> hexec c ls h -> no_error (trace (h_s h)) -> ~ data_race (h_log h) i j.
Proof.
  intros c ls h i j Hwf Ha H Hno [Hne [Ai [Aj [W [N1 N2]]]]]. pose proof (hexec_HI c ls h Hwf Ha H) as I.
  assert (Po : forall a b x y, a <> b -> nth_error (h_log h) a = Some (0, x) -> nth_error (h_log h) b = Some (0, y) -> happens_before (h_log h) a b \/ happens_before (h_log h) b a).
  { intros a b x y D E1 E2. destruct (Nat.lt_trichotomy a b) as [L|[L|L]]; [left; eapply hb_thread; eassumption|contradiction|right; eapply hb_thread; eassumption]. }
  assert (Acc : forall k, status_access (h_log h) k -> exists t n, nth_error (h_log h) k = Some (t, HNote n)) by (intros k [[t X]|[t X]]; eauto).
  assert (S : happens_before (h_log h) i j \/ happens_before (h_log h) j i); [|tauto].
  destruct (Acc i Ai) as [ti [ni Ei]]. destruct (Acc j Aj) as [tj [nj Ej]].
  destruct (hi_phase c h I) as [[_ P]|[_ [b [C _]]]].
  - destruct (P _ _ _ Ei) as [-> _]. destruct (P _ _ _ Ej) as [-> _]. eapply Po; eassumption.
  - cbn [h_s h_log] in C.
    assert (Wr : forall k, at_ (h_log h) k NWrite -> k < b /\ nth_error (h_log h) k = Some (0, HNote NWrite)).
    { intros k Hk. destruct (Nat.lt_ge_cases k b) as [L|L].
      - destruct Hk as [t Hk]. destruct (co_before _ _ _ _ _ C k _ t L Hk) as [-> _]. auto.
      - destruct (co_write _ _ _ _ _ C k L Hk) as [e [r [H1 H2]]]. apply Hno in H1. lia. }
    assert (G : forall a d ta na, a <> d -> at_ (h_log h) a NWrite -> nth_error (h_log h) d = Some (ta, HNote na) -> happens_before (h_log h) a d \/ happens_before (h_log h) d a).
    { intros a d ta na D Hw Hd. destruct (Wr a Hw) as [L E]. destruct (Nat.lt_ge_cases d b) as [L2|L2].
      - destruct (co_before _ _ _ _ _ C d na ta L2 Hd) as [-> _]. eapply Po; eassumption.
      - left. eapply (co_notes _ _ _ _ _ C); [exists ta; exact Hd|exact L2|exact L|exact E]. }
    destruct W as [W|W]; [eapply G; eassumption|]. destruct (G j i ti ni (fun X => Hne (eq_sym X)) W Ei); tauto.
Qed.
Print Assumptions C123_status_partial.

(** ** Logs without an order between two places *)
Definition rel_of (a : hact) : option hloc := match a with HStore l | HRmw l | HRel l | HUnlock l => Some l | _ => None end.
Definition acq_of (a : hact) : option hloc := match a with HLoad l | HRmw l | HLock l => Some l | _ => None end.
Definition edgeb (m : hlog) (i j : nat) : bool :=
  Nat.ltb i j &&
  match nth_error m i, nth_error m j with
  | Some (t, a), Some (u, b) => Nat.eqb t u || match rel_of a, acq_of b with Some l, Some q => if hloc_eq l q then true else false | _, _ => false end
  | _, _ => false
  end.
Definition closedb (m : hlog) (S : list nat) : bool :=
  forallb (fun i => forallb (fun j => negb (edgeb m i j) || memb j S) (seq 0 (length m))) S.
Lemma closedb_hb m S i j : closedb m S = true -> happens_before m i j -> In i S -> In j S.
Proof.
  intros HC Hb. assert (G : forall i j, edgeb m i j = true -> j < length m -> In i S -> In j S).
  { intros x y Hxy Hy Hx. unfold closedb in HC. rewrite forallb_forall in HC. specialize (HC x Hx). rewrite forallb_forall in HC.
    specialize (HC y). rewrite Hxy in HC. simpl in HC. apply memb_in. apply HC. apply in_seq. lia. }
  induction Hb as [i j t a b L Ei Ej|i j t u a b l L Ei Ej Hr Hq _|i k j _ IH1 _ IH2]; [| |auto].
  - apply G; [|eapply nth_lt; exact Ej]. unfold edgeb. rewrite Ei, Ej, Nat.eqb_refl. apply Nat.ltb_lt in L. rewrite L. reflexivity.
  - apply G; [|eapply nth_lt; exact Ej]. unfold edgeb. rewrite Ei, Ej. apply Nat.ltb_lt in L. rewrite L.
    assert (R : rel_of a = Some l) by (destruct Hr as [->|[->|[->| ->]]]; reflexivity). assert (Q : acq_of b = Some l) by (destruct Hq as [->|[->| ->]]; reflexivity).
    rewrite R, Q. destruct (hloc_eq l l); [|congruence]. rewrite orb_true_r. reflexivity.
Qed.

(** 0 and 1 are sources, 2 follows both. 0 fails on a worker while the caller runs 1; the caller then reads the status, which the worker writes under a lock the caller does not take. *)
Definition race_schedule : list dlabel :=
  [LRun; M; M;                 (* run, prepareRun, the counter of ends *)
   M; M; LPick 0; W;           (* 0 starts on the worker *)
   M; M; LWork 0 boom; W;      (* 1 starts in the caller; 0 fails and writes the status *)
   M; M;                       (* 1 ends; the caller reads the status *)
   M; M; M; M; M; M].          (* the caller waits, reads the status, returns it *)
Definition race_h : hst := match hrun join_c (h_init join_c) race_schedule with Some h => h | None => h_init join_c end.
Lemma race_exec : hexec join_c race_schedule race_h.
Proof.
  split; [vm_compute; reflexivity|]. eapply disciplined_one_run; [vm_compute; reflexivity|].
  intros Hin. repeat (destruct Hin as [Hin|Hin]; [discriminate Hin|]). exact Hin.
Qed.
Lemma no_hb m S i j : closedb m S = true -> In i S -> ~ In j S -> ~ happens_before m i j.
Proof. intros H1 H2 H3 Hb. apply H3. eapply closedb_hb; eassumption. Qed.

(** With an error there is a data race: the read with which run fetches the status it returns is not ordered with the write of the failing element's thread. *)
Theorem C123_status_refuted : exists c ls h i j st, wf (c_g c) /\ acyclic (c_g c) /\ hexec c ls h /\ d_out (h_s h) = Some st /\ (code st < 0)%Z /\
  data_race (h_log h) i j /\ at_ (h_log h) (S j) (NRet st).
Proof.
  exists join_c, race_schedule, race_h, 14, 22, boom. split; [exact join_wf|]. split; [exact join_acyclic|]. split; [exact race_exec|].
  split; [vm_compute; reflexivity|]. split; [vm_compute; reflexivity|]. split.
  - split; [discriminate|]. split; [right; exists 1; vm_compute; reflexivity|]. split; [left; exists 0; vm_compute; reflexivity|].
    split; [left; exists 1; vm_compute; reflexivity|]. split.
    + apply (no_hb _ [14; 15]); [vm_compute; reflexivity|left; reflexivity|]. intros [X|[X|[]]]; discriminate X.
    + intros Hb. apply hb_lt in Hb. lia.
  - exists 0. vm_compute. reflexivity.
Qed.
Print Assumptions C123_status_refuted.

(** And when run returns an error, the caller need not see what the failing element did. *)
Theorem C123_error_refuted : exists c ls h i j e st, wf (c_g c) /\ acyclic (c_g c) /\ hexec c ls h /\ (code st < 0)%Z /\
  at_ (h_log h) i (NFinish e st) /\ at_ (h_log h) j (NRet st) /\ i < j /\ ~ happens_before (h_log h) i j.
Proof.
  exists join_c, race_schedule, race_h, 11, 23, 0, boom. split; [exact join_wf|]. split; [exact join_acyclic|]. split; [exact race_exec|].
  split; [vm_compute; reflexivity|]. split; [exists 1; vm_compute; reflexivity|]. split; [exists 0; vm_compute; reflexivity|]. split; [lia|].
  apply (no_hb _ [11; 12; 13; 14; 15]); [vm_compute; reflexivity|left; reflexivity|]. intros X. repeat destruct X as [X|X]; try discriminate X. destruct X.
Qed.
Print Assumptions C123_error_refuted.

(** A run in which the theorems apply: 0 on a worker, 1 in the caller, then 2 on the worker; 0 and 1 are not ordered, each of them happens before 2, and all of it before the return. *)
Definition good_schedule : list dlabel :=
  [LRun; M; M; M; M; LPick 0; W; M; M; M; M; M; M; W; W; W; W; W; W; W; W; W; W; M; M; M; M; M].
Definition good_h : hst := match hrun join_c (h_init join_c) good_schedule with Some h => h | None => h_init join_c end.
Lemma good_exec : hexec join_c good_schedule good_h.
Proof.
  split; [vm_compute; reflexivity|]. eapply disciplined_one_run; [vm_compute; reflexivity|].
  intros Hin. repeat (destruct Hin as [Hin|Hin]; [discriminate Hin|]). exact Hin.
Qed.
Example C123_nonvacuous :
  at_ (h_log good_h) 0 NCall /\ at_ (h_log good_h) 14 (NFinish 0 st_default) /\ at_ (h_log good_h) 11 (NFinish 1 st_default) /\
  at_ (h_log good_h) 19 (NStart 2) /\ at_ (h_log good_h) 29 (NRet st_default) /\
  ~ happens_before (h_log good_h) 11 14 /\ ~ happens_before (h_log good_h) 14 11 /\
  happens_before (h_log good_h) 0 14 /\ happens_before (h_log good_h) 14 19 /\ happens_before (h_log good_h) 11 19 /\ happens_before (h_log good_h) 14 29 /\
  no_error (trace (h_s good_h)).
Proof.
  assert (A0 : at_ (h_log good_h) 0 NCall) by (exists 0; vm_compute; reflexivity).
  assert (A1 : at_ (h_log good_h) 14 (NFinish 0 st_default)) by (exists 1; vm_compute; reflexivity).
  assert (A2 : at_ (h_log good_h) 11 (NFinish 1 st_default)) by (exists 0; vm_compute; reflexivity).
  assert (A3 : at_ (h_log good_h) 19 (NStart 2)) by (exists 1; vm_compute; reflexivity).
  assert (A4 : at_ (h_log good_h) 29 (NRet st_default)) by (exists 0; vm_compute; reflexivity).
  assert (P : forall d, d = 0 \/ d = 1 -> path (c_g join_c) d 2).
  { intros d [->| ->]; apply t_step; (split; [vm_compute; auto|vm_compute; auto]). }
  split; [exact A0|]. split; [exact A1|]. split; [exact A2|]. split; [exact A3|]. split; [exact A4|].
  split; [apply (no_hb _ (11 :: 12 :: 13 :: seq 16 14)); [vm_compute; reflexivity|left; reflexivity|]|].
  { intros X. assert (Y : memb 14 (11 :: 12 :: 13 :: seq 16 14) = true) by (apply memb_in; exact X). vm_compute in Y. discriminate Y. }
  split; [intros Hb; apply hb_lt in Hb; lia|].
  split; [apply (C123_call join_c good_schedule good_h 0 0 14 (NFinish 0 st_default) join_wf join_acyclic good_exec A0); [right; eauto|exact A1]|].
  split; [exact (C123_order join_c good_schedule good_h 0 2 14 19 _ join_wf join_acyclic good_exec (P 0 (or_introl eq_refl)) A1 A3)|].
  split; [exact (C123_order join_c good_schedule good_h 1 2 11 19 _ join_wf join_acyclic good_exec (P 1 (or_intror eq_refl)) A2 A3)|].
  split.
  - destruct (C123_return join_c good_schedule good_h 29 st_default join_wf join_acyclic good_exec A4) as [_ R]; [vm_compute; discriminate|].
    apply (R 0 14 st_default); [vm_compute; auto|exact A1].
  - assert (E : trace (h_s good_h) = [GStart 0; GStart 1; GFinish 1 st_default; GFinish 0 st_default; GStart 2; GFinish 2 st_default]) by (vm_compute; reflexivity).
    rewrite E. intros e r X. repeat destruct X as [X|X]; try discriminate X; try (injection X as _ <-; vm_compute; discriminate). destruct X.
Qed.
