(** C128: topics used by threads that run at the same time. *)
From Verif Require Import MsgConModel MsgConSpec MsgSpec MsgProofs MsgProps MsgConProofs.
From Coq Require Import Lia.
Local Open Scope nat_scope.
Local Open Scope list_scope.

Lemma roomy_every vt N ls s : roomy ls -> trun vt N ts_new ls = TRun s -> every roomy_op s.
Proof. intros R E. eapply every_run; [apply every_new|exact R|exact E]. Qed.
Lemma run_inv vt N ls s : trun vt N ts_new ls = TRun s -> tinv vt N s.
Proof. intro E. eapply trun_inv; [apply tinv_new|exact E]. Qed.

(** Every execution of any number of threads that stays defined is equivalent to the same calls made one after the other: each
    call takes effect once, between its start and its return, with the answer a bounded queue gives after the calls before it;
    and a send that waits for room does not return without having stored its message.
    Missing for the full property: executions can be undefined, see [C128_race_refuted] and [C128_use_refuted]. *)
Theorem C128_atomic_partial : forall vtype N ls s, roomy ls -> trun vtype N ts_new ls = TRun s ->
  atomic vtype (ts_tr s) /\ forall t o a, In (t, o, a) (accs (ts_tr s)) -> a <> MBlocked.
Proof.
  intros vt N ls s R E. pose proof (run_inv _ _ _ _ E) as I. pose proof (roomy_every _ _ _ _ R E) as EV.
  split; [split|].
  - intro t. eapply at_pc_turn, (ti_pc _ _ _ I).
  - intros a t o v b X. pose proof (ti_ans _ _ _ I _ _ _ _ _ X) as A. set (h := rev (map (fun x => snd (fst x)) a)) in *.
    assert (PA : past (ts_tr s) = rev (map (fun x => snd (fst x)) b) ++ o :: h).
    { unfold past, c_ops. rewrite X, map_app, rev_app_distr. cbn [map rev fst snd]. now rewrite <- app_assoc. }
    assert (SZ : sized (o :: h)) by (intros o' H; apply (sized_past vt N s EV I); rewrite PA; apply in_app_iff; now right).
    assert (D : m_after vt h <> None) by (unfold m_answer in A; destruct (m_after vt h); discriminate).
    assert (AL : allowed o = true) by (apply (ti_all _ _ _ I); right; rewrite PA; apply in_app_iff; right; now left).
    destruct (C30_answers vt h o SZ D (allowed_sr o AL)) as [A' _]. congruence.
  - apply (carried_run vt N ls ts_new s (tinv_new vt N)); [|exact E]. intros t o a [].
Qed.
(** Messages are neither lost, duplicated nor reordered: in every defined execution, whoever sends and receives, the values that
    waiting sends put into a topic are, in the order of the sends, those that receives handed out so far followed by those it
    still holds. *)
Theorem C128_delivery_partial : forall vtype N ls s k, roomy ls -> trun vtype N ts_new ls = TRun s ->
  ~ calls ls (MRemove k) -> (forall v g, calls ls (MSend k v g) -> g = SWait) ->
  match chan (past (ts_tr s)) k with
  | Some (_, _, q) => put_in k (accs (ts_tr s)) = handed_out k (accs (ts_tr s)) ++ q
  | None => put_in k (accs (ts_tr s)) = [] /\ handed_out k (accs (ts_tr s)) = []
  end.
Proof.
  intros vt N ls s k R E NR WS. destruct (C128_atomic_partial vt N ls s R E) as [[_ A] B]. pose proof (run_inv _ _ _ _ E) as I.
  assert (EV : every (calls ls) s) by (eapply every_run; [apply every_new| |exact E]; auto).
  apply (delivered vt k); [exact A|]. intros t o a H. split; [eapply B; exact H|].
  assert (IN : In o (past (ts_tr s))) by (unfold past; apply -> in_rev; unfold c_ops; apply in_map_iff; now exists (t, o, a)).
  split; [apply (ti_all _ _ _ I); now right|]. pose proof (proj2 EV _ IN) as C. split; [intros ->; contradiction|]. intros v g ->. eapply WS; exact C.
Qed.
(** Making and removing topics from several threads is always defined, as long as nobody sends or receives. *)
Theorem C128_locked_partial : forall vtype N ls0 s ls, trun vtype N ts_new ls0 = TRun s -> quiet s ->
  (forall o, calls ls o -> locks o = true) -> trun vtype N s ls <> TUndef.
Proof.
  intros vt N ls0 s ls E [_ Q] C. apply locked_run; [eapply run_inv; exact E| |exact C]. intros u o H. rewrite Q in H. discriminate.
Qed.
(** When the topics were made before, every mix of sends and receives by any number of threads (on topics that exist or not), and
    of repeated creations, is defined. *)
Theorem C128_prepared_partial : forall vtype N ls0 s ls, roomy (ls0 ++ ls) -> trun vtype N ts_new ls0 = TRun s -> quiet s ->
  (forall o, calls ls o -> prepared (past (ts_tr s)) o) -> trun vtype N s ls <> TUndef.
Proof.
  intros vt N ls0 s ls R E [_ Q] C.
  assert (R0 : roomy ls0) by (intros o (t & H); apply R; exists t; apply in_app_iff; now left).
  assert (R1 : roomy ls) by (intros o (t & H); apply R; exists t; apply in_app_iff; now right).
  pose proof (run_inv _ _ _ _ E) as I. pose proof (roomy_every _ _ _ _ R0 E) as EV.
  apply (calm_run vt N (present (ts_ms s))); [exact I|exact EV| |].
  - constructor; [reflexivity|..].
    + intros t o H. rewrite Q in H. discriminate.
    + intro t. now rewrite Q.
    + intros t o n H. rewrite Q in H. discriminate.
  - intros o H. split; [|now apply R1]. specialize (C o H). destruct o as [k' t' n|k'|k' v g|k' t'|k' t' size pos|k' c|k' v g|c t'|k'|]; cbn in *; try contradiction; try exact Logic.I.
    pose proof (srinv_all vt _ _ (sized_past vt N s EV I) (ti_ms _ _ _ I) k') as X. unfold present. destruct (chan (past (ts_tr s)) k') as [[[ty c] q]|]; [|now destruct C].
    destruct X as (_ & b & -> & _). reflexivity.
Qed.
(** The calls do not block each other for good: while a thread is in a call, some thread can go on or every thread in a call
    receives from an empty topic or sends to a full one; a receive can give up then; and after at most four steps for every
    thread no call is left that can go on. *)
Theorem C128_live_partial : forall vtype N ls s, roomy ls -> trun vtype N ts_new ls = TRun s ->
  ((exists u, tstep vtype N s (LGo u) <> TStuck) \/ forall t, ts_pc s t <> Idle -> waits s t) /\
  (forall t k ty n, ts_pc s t = Use (MRecv k ty) n -> waits s t -> tstep vtype N s (LTime t) <> TStuck) /\
  forall ls' s', (forall t o, ~ In (LCall t o) ls') -> trun vtype N s ls' = TRun s' -> length ls' <= 4 * N.
Proof.
  intros vt N ls s R E. pose proof (run_inv _ _ _ _ E) as I. pose proof (roomy_every _ _ _ _ R E) as EV. split; [|split].
  - destruct (ts_lock s) as [u|] eqn:L; [left; exists u; now apply holder_goes|].
    assert (D : (exists u, u < N /\ tstep vt N s (LGo u) <> TStuck) \/ forall u, u < N -> tstep vt N s (LGo u) = TStuck).
    { clear. generalize N at 1 3. intro n. induction n as [|n [(u & U & X)|IH]]; [right; lia|left; exists u; split; [lia|exact X]|].
      destruct (tstep vt N s (LGo n)) eqn:X; [left; exists n; split; [lia|rewrite X; discriminate]..|].
      right. intros u U. destruct (Nat.eq_dec u n) as [->|]; [exact X|apply IH; lia]. }
    destruct D as [(u & _ & U)|D]; [left; eauto|]. right. intros t NI.
    destruct (stuck_why vt N s t I EV NI (D t (ti_N _ _ _ I t NI))) as [(o & u & _ & X)|W]; [congruence|exact W].
  - intros t k ty n P (k' & n' & [(ty' & ty2 & P' & c & CH)|(v & ty' & c & q & P' & _)]) X; [|congruence].
    rewrite P in P'. injection P' as <- <- <-. cbn [tstep] in X. rewrite P in X. destruct (negb _); [discriminate|].
    destruct (step_ok vt N s t (MRecv k ty) I EV) as (m & M); [eauto|]. rewrite M in X. cbn [expected] in X. rewrite CH in X. discriminate.
  - intros ls' s' NC E'. pose proof (go_run vt N ls' s s' I NC E'). pose proof (total_bound N s). lia.
Qed.
(** In every history in which no call is under way: a send to or a receive from any topic, while another thread makes a new
    one, is a data race. *)
Theorem C128_race_refuted : forall vtype N ls s t1 t2 k ty n o, trun vtype N ts_new ls = TRun s -> roomy ls -> quiet s -> chan (past (ts_tr s)) k = None ->
  (exists k' v g ty', o = MSend k' v g \/ o = MRecv k' ty') -> t1 < N -> t2 < N -> t1 <> t2 ->
  trun vtype N s [LCall t1 (MCreate k ty n); LCall t2 o; LGo t1; LGo t1; LGo t2] = TUndef /\
  trun vtype N s [LCall t1 (MCreate k ty n); LCall t2 o; LGo t2; LGo t1; LGo t1] = TUndef.
Proof.
  intros vt N ls s t1 t2 k ty n o E R [QL Q] CH O L1 L2 NE. pose proof (run_inv _ _ _ _ E) as I. pose proof (roomy_every _ _ _ _ R E) as EV.
  assert (FN : present (ts_ms s) k = false).
  { pose proof (srinv_all vt _ _ (sized_past vt N s EV I) (ti_ms _ _ _ I) k) as X. rewrite CH in X. unfold present. now rewrite X. }
  assert (AL : allowed o = true /\ locks o = false) by (destruct O as (k' & v & g & ty' & [->| ->]); now split). destruct AL as [AL LO].
  assert (OT : forall u, u <> t1 -> u <> t2 -> upd (upd (ts_pc s) t1 (Want (MCreate k ty n))) t2 (Want o) u = Idle) by (intros u U1 U2; rewrite !upd_other by congruence; apply Q).
  split.
  - cbn [trun tstep]. rewrite (proj2 (Nat.ltb_lt _ _) L1), (proj2 (Nat.ltb_lt _ _) L2), Q. cbn [andb allowed ts_pc ts_ms ts_lock ts_tr ts_gen].
    rewrite (upd_other (ts_pc s) t1 _ t2) by congruence. rewrite Q, AL. cbn [ts_pc ts_ms ts_lock ts_tr ts_gen].
    rewrite (upd_other _ t2 _ t1) by congruence. rewrite upd_same. cbn [locks]. rewrite QL.
    rewrite (writer_false vt).
    2:{ intros u U. cbn [ts_pc]. destruct (Nat.eq_dec u t2) as [->|U2]; [now rewrite upd_same|now rewrite OT]. }
    cbn [ts_pc ts_ms ts_lock ts_tr ts_gen]. rewrite upd_same. cbn [changes]. rewrite FN. cbn [negb].
    rewrite (busy_false vt).
    2:{ intros u U. cbn [ts_pc]. rewrite (upd_other _ t1 _ u) by congruence. destruct (Nat.eq_dec u t2) as [->|U2]; [now rewrite upd_same|now rewrite OT]. }
    cbn [ts_pc ts_ms ts_lock ts_tr ts_gen]. rewrite !(upd_other _ t1 _ t2) by congruence. rewrite upd_same. rewrite LO.
    replace (writer N _ t2) with true; [reflexivity|]. symmetry. unfold writer. apply existsb_exists. exists t1. split; [apply others_in; now split|]. cbn [ts_pc]. now rewrite upd_same.
  - cbn [trun tstep]. rewrite (proj2 (Nat.ltb_lt _ _) L1), (proj2 (Nat.ltb_lt _ _) L2), Q. cbn [andb allowed ts_pc ts_ms ts_lock ts_tr ts_gen].
    rewrite (upd_other (ts_pc s) t1 _ t2) by congruence. rewrite Q, AL. cbn [ts_pc ts_ms ts_lock ts_tr ts_gen]. rewrite upd_same, LO.
    rewrite (writer_false vt).
    2:{ intros u U. cbn [ts_pc]. destruct (Nat.eq_dec u t1) as [->|U1]; [rewrite upd_other by congruence; now rewrite upd_same|now rewrite OT]. }
    unfold set_pc. cbn [ts_pc ts_ms ts_lock ts_tr ts_gen]. rewrite !(upd_other _ t2 _ t1) by congruence. rewrite upd_same. cbn [locks]. rewrite QL.
    rewrite (writer_false vt).
    2:{ intros u U. cbn [ts_pc]. destruct (Nat.eq_dec u t2) as [->|U2]; [now rewrite upd_same|]. rewrite upd_other by congruence. now rewrite OT. }
    cbn [ts_pc ts_ms ts_lock ts_tr ts_gen]. rewrite upd_same. cbn [changes]. rewrite FN. cbn [negb].
    replace (busy N _ t1) with true; [reflexivity|]. symmetry. unfold busy. apply existsb_exists. exists t2. split; [apply others_in; split; [exact L2|congruence]|]. cbn [ts_pc].
    rewrite upd_other by congruence. now rewrite upd_same.
Qed.
(** In every history in which no call is under way: a thread found its topic and is about to send or to receive, or waits for
    room or for a message; another thread removes the topic, and is told that it is gone. Whatever the first thread does next
    (go on, or give up waiting) touches the deleted message. *)
Theorem C128_use_refuted : forall vtype N ls s t1 t2 k o, trun vtype N ts_new ls = TRun s -> roomy ls -> quiet s -> chan (past (ts_tr s)) k <> None ->
  (exists v g ty', o = MSend k v g \/ o = MRecv k ty') -> t1 < N -> t2 < N -> t1 <> t2 ->
  exists s', trun vtype N s [LCall t1 o; LGo t1; LGo t1; LCall t2 (MRemove k); LGo t2; LGo t2; LGo t2; LGo t2] = TRun s' /\
    In (ERet t2 (MRemove k) MOk) (ts_tr s') /\ tstep vtype N s' (LGo t1) = TUndef /\ tstep vtype N s' (LTime t1) = TUndef.
Proof.
  intros vt N ls s t1 t2 k o E R [QL Q] CH O L1 L2 NE. pose proof (run_inv _ _ _ _ E) as I. pose proof (roomy_every _ _ _ _ R E) as EV.
  assert (FN : present (ts_ms s) k = true).
  { pose proof (srinv_all vt _ _ (sized_past vt N s EV I) (ti_ms _ _ _ I) k) as X. destruct (chan _ k) as [[[ty c] q]|]; [|now destruct CH]. destruct X as (_ & b & X & _). unfold present. now rewrite X. }
  assert (AL : allowed o = true /\ locks o = false /\ topic_of o = k /\ changes (ts_ms s) o = false) by (destruct O as (v & g & ty' & [->| ->]); now repeat split). destruct AL as (AL & LO & TO & CO).
  assert (W : forall s1 t, (forall u, u <> t -> changing (ts_pc s1 u) = false /\ looking (ts_pc s1 u) = false) -> writer N s1 t = false /\ busy N s1 t = false).
  { intros s1 t H. split; [apply (writer_false vt); intros u U; now apply H|now apply (busy_false vt)]. }
  assert (G : exists s', trun vt N s [LCall t1 o; LGo t1; LGo t1; LCall t2 (MRemove k); LGo t2; LGo t2; LGo t2; LGo t2] = TRun s' /\ In (ERet t2 (MRemove k) MOk) (ts_tr s') /\
    ts_pc s' t1 = Use o (ts_gen s k) /\ ts_gen s' k = S (ts_gen s k)).
  { cbn [trun tstep]. rewrite (proj2 (Nat.ltb_lt _ _) L1), Q, AL. cbn [andb ts_pc ts_ms ts_lock ts_tr ts_gen]. rewrite upd_same, LO.
    match goal with |- context [writer N ?s1 t1] => rewrite (proj1 (W s1 t1 ltac:(intros u U; cbn [ts_pc]; rewrite !upd_other by exact U; rewrite Q; now split))) end.
    unfold set_pc. cbn [ts_pc ts_ms ts_lock ts_tr ts_gen]. rewrite upd_same, CO, LO, TO, FN. cbn [negb andb ts_pc ts_ms ts_lock ts_tr ts_gen].
    rewrite (proj2 (Nat.ltb_lt _ _) L2). cbn [andb allowed]. rewrite !(upd_other _ t1 _ t2) by congruence. rewrite Q. cbn [ts_pc ts_ms ts_lock ts_tr ts_gen]. rewrite upd_same. cbn [locks]. rewrite QL.
    match goal with |- context [writer N ?s1 t2] => rewrite (proj1 (W s1 t2 ltac:(intros u U; cbn [ts_pc]; rewrite upd_other by exact U; destruct (Nat.eq_dec u t1) as [->|U1]; [rewrite upd_same; now split|rewrite !upd_other by exact U1; rewrite Q; now split]))) end.
    cbn [ts_pc ts_ms ts_lock ts_tr ts_gen]. rewrite upd_same. cbn [changes]. rewrite FN.
    match goal with |- context [busy N ?s1 t2] => rewrite (proj2 (W s1 t2 ltac:(intros u U; cbn [ts_pc]; rewrite !(upd_other _ t2) by exact U; destruct (Nat.eq_dec u t1) as [->|U1]; [rewrite upd_same; now split|rewrite !upd_other by exact U1; rewrite Q; now split]))) end.
    cbn [ts_pc ts_ms ts_lock ts_tr ts_gen]. rewrite upd_same. unfold take_effect. cbn [m_step ts_ms]. unfold m_remove. pose proof FN as FN'. unfold present in FN'. destruct (tfind k (ms_sr (ts_ms s))) as [x|]; [|discriminate].
    unfold done_with. cbn [ts_pc ts_ms ts_lock ts_tr ts_gen]. rewrite upd_same. eexists. split; [reflexivity|]. cbn [ts_pc ts_ms ts_lock ts_tr ts_gen].
    split; [apply in_app_iff; right; now left|]. rewrite !(upd_other _ t2 _ t1) by congruence. now rewrite !upd_same. }
  destruct G as (s' & G1 & G2 & G3 & G4). exists s'. split; [exact G1|]. split; [exact G2|]. cbn [tstep]. rewrite G3, TO, G4.
  destruct (Nat.eqb_spec (S (ts_gen s k)) (ts_gen s k)); [lia|]. now split.
Qed.

(** Two producers and a consumer on a topic of size 2 (room for one): the second send waits, the receive lets it go on. *)
Definition con_made : list tlabel := [LCall 0 (MCreate 5 0 2); LGo 0; LGo 0; LGo 0; LGo 0].
Definition con_busy : list tlabel :=
  [LCall 0 (MSend 5 7 SWait); LCall 1 (MSend 5 8 SWait); LCall 2 (MRecv 5 0); LGo 2; LGo 0; LGo 1; LGo 1; LGo 0; LGo 2; LGo 1; LGo 2; LGo 0; LGo 2].
Example C128_case : exists s s', trun (fun _ => 0) 3 ts_new con_made = TRun s /\ quiet s /\ chan (past (ts_tr s)) 5 = Some (0, 2, []) /\ chan (past (ts_tr s)) 6 = None /\
  (forall o, calls con_busy o -> prepared (past (ts_tr s)) o) /\ trun (fun _ => 0) 3 s con_busy = TRun s' /\
  accs (ts_tr s') = [(0, MCreate 5 0 2, MOk); (1, MSend 5 8 SWait, MOk); (2, MRecv 5 0, MGot 8); (0, MSend 5 7 SWait, MOk)] /\
  put_in 5 (accs (ts_tr s')) = [8; 7] /\ handed_out 5 (accs (ts_tr s')) = [8] /\ chan (past (ts_tr s')) 5 = Some (0, 2, [7]).
Proof.
  eexists. eexists. split; [vm_compute; reflexivity|]. split; [split; [reflexivity|]; intro t; cbn; now destruct t|]. split; [reflexivity|]. split; [reflexivity|].
  split; [intros o (t & H); cbn in H; repeat (destruct H as [H|H]; [try discriminate; injection H as <- <-; exact Logic.I|]); destruct H|].
  split; [vm_compute; reflexivity|]. now repeat split.
Qed.
Example C128_case_roomy : roomy (con_made ++ con_busy) /\ ~ calls (con_made ++ con_busy) (MRemove 5) /\
  (forall v g, calls (con_made ++ con_busy) (MSend 5 v g) -> g = SWait).
Proof.
  split; [|split].
  - intros o (t & H). cbn in H. repeat (destruct H as [H|H]; [try discriminate; injection H as <- <-; cbn; lia || exact Logic.I|]). destruct H.
  - intros (t & H). cbn in H. repeat (destruct H as [H|H]; [discriminate|]). destruct H.
  - intros v g (t & H). cbn in H. repeat (destruct H as [H|H]; [try discriminate; injection H; congruence|]). destruct H.
Qed.
(** A receive from an empty topic waits. *)
Example C128_case_waits : exists s, trun (fun _ => 0) 3 ts_new (con_made ++ [LCall 2 (MRecv 5 0); LGo 2; LGo 2]) = TRun s /\ waits s 2 /\ tstep (fun _ => 0) 3 s (LGo 2) = TStuck.
Proof. eexists. split; [vm_compute; reflexivity|]. split; [|reflexivity]. exists 5, 0. left. exists 0, 0. split; [reflexivity|]. now exists 2. Qed.
Print Assumptions C128_atomic_partial.
Print Assumptions C128_delivery_partial.
Print Assumptions C128_locked_partial.
Print Assumptions C128_prepared_partial.
Print Assumptions C128_live_partial.
Print Assumptions C128_race_refuted.
Print Assumptions C128_use_refuted.
