(** C93: coordinators change the number of secondary threads as asked. *)
From Verif Require Import CoordRunProofs.
From Coq Require Import Lia.
Local Open Scope nat_scope.
Local Open Scope list_scope.

(** Calls of one actor from their start to their end, for the examples: [m] actions. *)
Definition whole (a : actor) (o : cop) (m : nat) : list clabel := CCall a o :: repeat (CStep a false) m.

(** Whatever the callers, the tasks and the schedule: the calls that came to their end act as if each happened at once, one after the other, in the order of the log, and
    whenever no call holds the mutex the list of the pool, and which of its threads were told to stop, is what this history says. *)
Theorem C93_history room ls s : crun room c_init ls = Next s ->
  exists q, history (c_log s) q /\ (c_mx s = None -> c_list s = o_list q /\ forall j, In j (c_list s) -> (c_told s j = true <-> In j (o_told q))).
Proof.
  intros R. destruct (ci_hist s (run_cinv _ _ _ _ cinv_init R)) as (q & H & _ & _ & _ & T & M). exists q. split; [exact H|]. intros O. rewrite O in M, T. split; [exact M|].
  intros j I. rewrite T by exact I. rewrite app_nil_r. apply memb_in.
Qed.
Example C93_history_ex : exists s, crun 4 c_init (whole (AMain 0) (OCreate 3) 6 ++ CTake 1 :: whole (AMain 1) (ORelease 2) 9) = Next s /\
  c_log s = [ECre (AMain 0) 3 [] [0; 1; 2]; ERel (AMain 1) 2 true [0; 1; 2] [0; 1; 2] [0; 1]] /\ c_mx s = None.
Proof. eexists. split; [vm_compute; reflexivity|]. split; reflexivity. Qed.

Lemma NoDup_front (a b : list nat) : NoDup (a ++ b) -> NoDup a.
Proof. induction a as [|x a IH]; cbn [app]; intros N; [constructor|]. inversion N as [|? ? X Y]; subst. constructor; [intros I; apply X, in_or_app; left; exact I|auto]. Qed.
Lemma filter_length_le_nat (f : nat -> bool) l : length (filter f l) <= length l.
Proof. induction l as [|x l IH]; cbn [filter length]; [lia|]. destruct (f x); cbn [length]; lia. Qed.
(** What a release does in such a history. *)
Theorem C93_release room ls s a n ok before after marked : crun room c_init ls = Next s -> In (ERel a n ok before after marked) (c_log s) ->
  (forall j, In j after -> In j before) /\ (forall j, In j marked -> In j after) /\ NoDup marked /\
  (ok = true -> Z.of_nat (length marked) = Z.max 0 n /\ exists rest, after = marked ++ rest) /\ (ok = false -> marked = [] /\ (Z.of_nat (length after) < n)%Z).
Proof.
  intros R. destruct (ci_hist s (run_cinv _ _ _ _ cinv_init R)) as (q & H & ND & _).
  assert (ALL : forall log p, history log p -> NoDup (o_list p) /\ (In (ERel a n ok before after marked) log ->
    (forall j, In j after -> In j before) /\ (forall j, In j marked -> In j after) /\ NoDup marked /\
    (ok = true -> Z.of_nat (length marked) = Z.max 0 n /\ exists rest, after = marked ++ rest) /\ (ok = false -> marked = [] /\ (Z.of_nat (length after) < n)%Z))).
  { clear. intros log p HI. induction HI as [|log p a0 n0 ok0 q marked0 HI [N IH] E|log p a0 n0 new HI [N IH] N2 F L|log p a0 keep HI [N IH] K].
    - split; [constructor|intros []].
    - unfold release_at_once in E. assert (NA : NoDup (alive p)) by (apply NoDup_filter_nat, N).
      split; [destruct (Z.of_nat (length (alive p)) <? n0)%Z; injection E as <- <- <-; exact NA|].
      intros I. apply in_app_or in I. destruct I as [I|[I|[]]]; [exact (IH I)|]. injection I as -> -> -> <- <- ->.
      destruct (Z.of_nat (length (alive p)) <? n)%Z eqn:LT; injection E as <- <- <-; cbn [o_list].
      + split; [intros j I; apply filter_In in I; apply I|]. split; [intros j []|]. split; [constructor|]. split; [discriminate|]. intros _. split; [reflexivity|]. apply Z.ltb_lt, LT.
      + apply Z.ltb_ge in LT. split; [intros j I; apply filter_In in I; apply I|]. rewrite <- (firstn_skipn (Z.to_nat n) (alive p)) in NA.
        split; [intros j I; rewrite <- (firstn_skipn (Z.to_nat n) (alive p)); apply in_or_app; left; exact I|]. split; [apply (NoDup_front _ _ NA)|].
        split; [|discriminate]. intros _. split; [rewrite firstn_length_le by lia; lia|]. exists (skipn (Z.to_nat n) (alive p)). symmetry. apply firstn_skipn.
    - split.
      + cbn [o_list]. clear L IH. revert F. induction N as [|x l X N1 I1]; intros F; cbn [app]; [exact N2|]. constructor.
        * intros I. apply in_app_or in I. destruct I as [I|I]; [exact (X I)|]. apply (proj1 (F x I)). left. reflexivity.
        * apply I1. intros j J. destruct (F j J) as [A B]. split; [intros K; apply A; right; exact K|exact B].
      + intros I. apply in_app_or in I. destruct I as [I|[I|[]]]; [exact (IH I)|discriminate I].
    - split; [apply NoDup_filter_nat, N|]. intros I. apply in_app_or in I. destruct I as [I|[I|[]]]; [exact (IH I)|discriminate I]. }
  apply (proj2 (ALL _ _ H)).
Qed.
(** A creation never makes more threads than it was asked for. *)
Theorem C93_created room ls s a n before after : crun room c_init ls = Next s -> In (ECre a n before after) (c_log s) ->
  exists new, after = before ++ new /\ length new <= Z.to_nat n /\ forall j, In j new -> ~ In j before.
Proof.
  intros R. destruct (ci_hist s (run_cinv _ _ _ _ cinv_init R)) as (q & H & _). clear R. generalize dependent q. generalize (c_log s). intros log q H.
  induction H as [|log p a0 n0 ok0 q marked0 HI IH E|log p a0 n0 new HI IH N2 F L|log p a0 keep HI IH K]; intros I; [destruct I|..]; apply in_app_or in I; destruct I as [I|[I|[]]]; try (exact (IH I)); try discriminate I.
  injection I as -> -> <- <-. exists new. split; [reflexivity|]. split; [exact L|]. intros j J. apply F, J.
Qed.
Example C93_created_ex : exists s, crun 4 c_init (whole (AMain 0) (OCreate 3) 6 ++ CTake 1 :: whole (AMain 1) (ORelease 2) 9) = Next s /\ In (ERel (AMain 1) 2 true [0; 1; 2] [0; 1; 2] [0; 1]) (c_log s) /\ In (ECre (AMain 0) 3 [] [0; 1; 2]) (c_log s).
Proof. eexists. split; [vm_compute; reflexivity|]. split; [right; left; reflexivity|left; reflexivity]. Qed.

(** A creation that no other thread disturbs: as many threads as wanted, and as there is room for. *)
Theorem C93_create_partial room ls s u n : crun room c_init ls = Next s -> c_mx s = None -> c_pc s (AMain u) = QNone ->
  exists ls' s', crun room s (CCall (AMain u) (OCreate n) :: ls') = Next s' /\ (forall lb, In lb ls' -> lb = CStep (AMain u) false) /\
    c_list s' = c_list s ++ seq (c_next s) (Z.to_nat (Z.min n (room - Z.of_nat (length (c_list s))))) /\ (forall j, In j (c_list s) -> j < c_next s) /\ c_told s' = c_told s /\ c_mx s' = None.
Proof.
  intros R M P. destruct (create_solo room (AMain u) n s I M P) as (ls' & s' & A & B & C & D & E). exists ls', s'. pose proof (ci_next s (run_cinv _ _ _ _ cinv_init R)) as NX. auto 8.
Qed.
Example C93_create_ex : exists s, crun 4 c_init (whole (AMain 0) (OCreate 3) 6) = Next s /\ c_mx s = None /\ c_pc s (AMain 1) = QNone /\ c_list s = [0; 1; 2].
Proof. eexists. split; [vm_compute; reflexivity|]. split; [|split]; reflexivity. Qed.
(** Two creations at the same time make more threads than there is room for. *)
Theorem C93_room_refuted : exists ls s, crun 4 c_init ls = Next s /\ (forall lb, In lb ls -> exists u, lb = CCall (AMain u) (OCreate 3) \/ lb = CStep (AMain u) false) /\ (4 < Z.of_nat (length (c_list s)))%Z.
Proof.
  exists ([CCall (AMain 0) (OCreate 3); CCall (AMain 1) (OCreate 3); CStep (AMain 0) false; CStep (AMain 1) false] ++ repeat (CStep (AMain 0) false) 5 ++ repeat (CStep (AMain 1) false) 5). eexists. split; [vm_compute; reflexivity|]. split; [|cbn; lia].
  intros lb I. cbn in I. repeat (destruct I as [<-|I]; [first [exists 0; auto; fail|exists 1; auto]|]). destruct I.
Qed.

(** As long as no secondary thread makes these calls from inside of a task: the program does not crash in them, and whatever was called can come to its end. *)
Theorem C93_no_crash_partial room ls : not_from_tasks ls -> crun room c_init ls <> Dead.
Proof. intros N. apply run_alive; [exact N|]. intros j. reflexivity. Qed.
Theorem C93_ends_partial room ls s : not_from_tasks ls -> crun room c_init ls = Next s ->
  exists ls' s', Forall no_call ls' /\ crun room s ls' = Next s' /\ forall a, c_pc s' a = QNone.
Proof.
  intros N R. apply drain_all; [exact (run_cinv _ _ _ _ cinv_init R)|apply (run_quiet room ls c_init s N); [intros j; reflexivity|exact R]|].
  apply (active_finite room ls c_init s []); [exact R|]. intros a K. exfalso. apply K. reflexivity.
Qed.
(** Three calls at once, one of them waiting for a thread that is in a task. *)
Definition three : list clabel := whole (AMain 0) (OCreate 3) 6 ++ CTake 0 :: whole (AMain 1) (ORelease 1) 8 ++ whole (AMain 1) (ORelease 1) 2 ++ [CCall (AMain 2) OSweep; CCall (AMain 0) (OCreate 5); CStep (AMain 0) false].
Example C93_ends_ex : exists s, crun 4 c_init three = Next s /\ not_from_tasks three /\ c_pc s (AMain 1) = QJoin 1 0 [1; 2] [0; 1; 2] /\ c_pc s (AMain 2) = QFLock /\ c_pc s (AMain 0) = QCLock 5 2.
Proof.
  eexists. split; [vm_compute; reflexivity|]. split; [|split; [|split]; reflexivity]. intros j o I. cbn in I. repeat (destruct I as [I|I]; [discriminate I|]). destruct I.
Qed.

(** A task on a secondary thread that calls two coordinators: the thread joins itself, the program dies. *)
Theorem C93_crash_refuted : exists ls, crun 4 c_init ls = Dead /\ forall lb, In lb ls -> match lb with CCall a o => a = AMain 0 /\ o = coordinator 1 \/ a = ASec 0 /\ o = coordinator (-1) | _ => True end.
Proof.
  exists (whole (AMain 0) (OCreate 1) 4 ++ CTake 0 :: whole (ASec 0) (ORelease 1) 6 ++ whole (ASec 0) (ORelease 1) 3). split; [vm_compute; reflexivity|].
  intros lb I. cbn in I. repeat (destruct I as [<-|I]; [cbn; auto|]). destruct I.
Qed.
(** One coordinator on a secondary thread, another elsewhere: they wait for each other, whatever happens next. *)
Theorem C93_stuck_refuted : exists ls s, crun 4 c_init ls = Next s /\ (forall lb, In lb ls -> match lb with CCall a o => a = AMain 0 /\ (o = coordinator 2 \/ o = coordinator (-1)) \/ a = ASec 0 /\ o = coordinator (-1) | _ => True end) /\
  c_pc s (AMain 0) <> QNone /\ c_pc s (ASec 0) <> QNone /\ forall ls' s', crun 4 s ls' = Next s' -> c_pc s' (AMain 0) = c_pc s (AMain 0) /\ c_pc s' (ASec 0) = c_pc s (ASec 0).
Proof.
  set (ls := whole (AMain 0) (OCreate 2) 5 ++ CTake 0 :: whole (AMain 0) (ORelease 1) 7 ++ whole (AMain 0) (ORelease 1) 2 ++ [CCall (ASec 0) (ORelease 1)]).
  assert (X : exists s, crun 4 c_init ls = Next s /\ stuck s (AMain 0) 0) by (eexists; split; [vm_compute; reflexivity|]; unfold stuck; cbn; split; [reflexivity|]; split; [reflexivity|]; split; [discriminate|]; split; [exact I|reflexivity]).
  destruct X as (s & R & K). exists ls, s. split; [exact R|]. split; [intros lb I; cbn in I; repeat (destruct I as [<-|I]; [cbn; auto|]); destruct I|].
  pose proof (run_cinv _ _ _ _ cinv_init R) as V.
  split; [|split; [|intros ls' s'; apply stuck_run; assumption]].
  - destruct K as (_ & J & _). intros E. rewrite E in J. exact J.
  - destruct K as (_ & _ & _ & W & _). intros E. rewrite E in W. exact W.
Qed.

Lemma alive_after p n : (forall j, In j (o_list p) -> ~ In j (o_told p)) -> NoDup (o_list p) ->
  filter (fun j => negb (memb j (o_told p ++ firstn n (o_list p)))) (o_list p) = skipn n (o_list p).
Proof.
  intros F ND. pose proof (firstn_skipn n (o_list p)) as SP. set (a := firstn n (o_list p)) in *. set (b := skipn n (o_list p)) in *. clearbody a b. rewrite <- SP in *.
  rewrite filter_app.
  assert (FA : forall l, (forall j, In j l -> In j a) -> filter (fun j => negb (memb j (o_told p ++ a))) l = []).
  { induction l as [|x l IH]; intros S; cbn [filter]; [reflexivity|]. replace (memb x (o_told p ++ a)) with true by (symmetry; apply memb_in, in_or_app; right; apply S; left; reflexivity). cbn [negb]. apply IH. intros j I. apply S. right. exact I. }
  assert (FB : forall l, (forall j, In j l -> ~ In j (o_told p) /\ ~ In j a) -> filter (fun j => negb (memb j (o_told p ++ a))) l = l).
  { induction l as [|x l IH]; intros S; cbn [filter]; [reflexivity|]. replace (memb x (o_told p ++ a)) with false by (symmetry; apply memb_false; intros I; apply in_app_or in I; destruct (S x (or_introl eq_refl)); tauto). cbn [negb]. f_equal. apply IH. intros j I. apply S. right. exact I. }
  rewrite FA by auto. rewrite FB; [reflexivity|]. intros j I. split; [apply F, in_or_app; right; exact I|]. intros J. clear -ND I J. induction a as [|x a IH]; [destruct J|]. cbn [app] in ND. inversion ND as [|? ? N1 N2]; subst.
  destruct J as [->|J]; [apply N1, in_or_app; right; exact I|exact (IH N2 J)].
Qed.
Lemma alive_all p : (forall j, In j (o_list p) -> ~ In j (o_told p)) -> alive p = o_list p.
Proof. intros F. unfold alive. induction (o_list p) as [|x l IH]; cbn [filter]; [reflexivity|]. replace (memb x (o_told p)) with false by (symmetry; apply memb_false, F; left; reflexivity). cbn [negb]. f_equal. apply IH. intros j I. apply F. right. exact I. Qed.
(** A full pool: after a release of [n] threads a creation makes nothing, because those told to stop stay in the list. *)
Theorem C93_recreate_refuted room p n m fresh : (forall j, In j (o_list p) -> ~ In j (o_told p)) -> NoDup (o_list p) -> Z.of_nat (length (o_list p)) = room -> (0 < n <= room)%Z ->
  exists q marked, release_at_once p n = (q, true, marked) /\ create_at_once room q m fresh = q /\ Z.of_nat (length (alive q)) = (room - n)%Z.
Proof.
  intros F ND L B. unfold release_at_once. rewrite (alive_all p F). destruct (Z.of_nat (length (o_list p)) <? n)%Z eqn:E; [apply Z.ltb_lt in E; lia|]. eexists _, _. split; [reflexivity|]. split.
  - unfold create_at_once. cbn [o_list o_told]. replace (Z.to_nat _) with 0 by lia. cbn [seq]. rewrite app_nil_r. reflexivity.
  - unfold alive. cbn [o_list o_told]. rewrite (alive_after p _ F ND), skipn_length. lia.
Qed.
(** The same in the model of the code: four of four threads, three released, three wanted: one is left. *)
Example C93_recreate_ex : exists s, crun 4 c_init (whole (AMain 0) (coordinator 4) 7 ++ whole (AMain 0) (coordinator (-3)) 11 ++ [CExit 0; CExit 1; CExit 2] ++ whole (AMain 0) (coordinator 3) 3) = Next s /\
  c_mx s = None /\ c_pc s (AMain 0) = QNone /\ filter (fun j => negb (c_told s j)) (c_list s) = [3].
Proof. eexists. split; [vm_compute; reflexivity|]. split; [|split]; reflexivity. Qed.
(** With a release of nothing in between, which takes the stopped threads out, the creation makes as many as were released. *)
Theorem C93_recreate_partial room p n fresh : NoDup (o_list p) -> (Z.of_nat (length (o_list p)) <= room)%Z -> (0 <= n <= Z.of_nat (length (alive p)))%Z -> (forall j, In j (o_list p) \/ In j (o_told p) -> j < fresh) ->
  exists q marked q2, release_at_once p n = (q, true, marked) /\ release_at_once q 0 = (q2, true, []) /\ length (alive (create_at_once room q2 n fresh)) = length (alive p).
Proof.
  intros ND LE B F. set (p1 := mkP (alive p) (o_told p)).
  assert (F1 : forall j, In j (o_list p1) -> ~ In j (o_told p1)).
  { intros j I. apply filter_In in I. destruct I as [_ I]. apply negb_true_iff in I. apply memb_false, I. }
  assert (N1 : NoDup (o_list p1)) by (apply NoDup_filter_nat, ND).
  pose proof (alive_after p1 (Z.to_nat n) F1 N1) as AA. cbn [p1 o_list o_told] in AA.
  assert (LA : length (alive p) <= length (o_list p)) by apply filter_length_le_nat.
  set (q := mkP (alive p) (o_told p ++ firstn (Z.to_nat n) (alive p))). set (q2 := mkP (skipn (Z.to_nat n) (alive p)) (o_told p ++ firstn (Z.to_nat n) (alive p))).
  exists q, (firstn (Z.to_nat n) (alive p)), q2. split; [unfold release_at_once; destruct (Z.of_nat (length (alive p)) <? n)%Z eqn:E; [apply Z.ltb_lt in E; lia|reflexivity]|].
  assert (AQ : alive q = skipn (Z.to_nat n) (alive p)) by exact AA.
  split; [unfold release_at_once; rewrite AQ; destruct (Z.of_nat (length (skipn (Z.to_nat n) (alive p))) <? 0)%Z eqn:E2; [apply Z.ltb_lt in E2; lia|]; cbn [Z.to_nat firstn]; rewrite app_nil_r; reflexivity|].
  change (length (filter (fun j => negb (memb j (o_told p ++ firstn (Z.to_nat n) (alive p)))) (skipn (Z.to_nat n) (alive p) ++ seq fresh (Z.to_nat (Z.min n (room - Z.of_nat (length (skipn (Z.to_nat n) (alive p))))))) ) = length (alive p)).
  rewrite filter_app, app_length.
  assert (FB : forall k b, fresh <= b -> filter (fun j => negb (memb j (o_told p ++ firstn (Z.to_nat n) (alive p)))) (seq b k) = seq b k).
  { induction k as [|k IH]; intros b L; cbn [seq filter]; [reflexivity|]. replace (memb b _) with false; [cbn [negb]; f_equal; apply IH; lia|]. symmetry. apply memb_false. intros I. apply in_app_or in I.
    assert (b < fresh); [|lia]. apply F. destruct I as [I|I]; [right; exact I|left].
    assert (J : In b (alive p)) by (rewrite <- (firstn_skipn (Z.to_nat n) (alive p)); apply in_or_app; left; exact I). apply filter_In in J. apply J. }
  rewrite FB by lia. rewrite seq_length, skipn_length.
  assert (FC : forall l, (forall j, In j l -> In j (skipn (Z.to_nat n) (alive p))) -> filter (fun j => negb (memb j (o_told p ++ firstn (Z.to_nat n) (alive p)))) l = l).
  { intros l S. assert (G : forall j, In j (skipn (Z.to_nat n) (alive p)) -> negb (memb j (o_told p ++ firstn (Z.to_nat n) (alive p))) = true) by (intros j I; rewrite <- AA in I; apply filter_In in I; apply I).
    induction l as [|x l IH]; cbn [filter]; [reflexivity|]. rewrite G by (apply S; left; reflexivity). f_equal. apply IH. intros j I. apply S. right. exact I. }
  rewrite FC by auto. rewrite skipn_length. lia.
Qed.
Example C93_recreate_partial_ex : let p := mkP [0; 1; 2; 3] [] in NoDup (o_list p) /\ (Z.of_nat (length (o_list p)) <= 4)%Z /\ (0 <= 3 <= Z.of_nat (length (alive p)))%Z /\ forall j, In j (o_list p) \/ In j (o_told p) -> j < 4.
Proof. cbn. split; [|split; [lia|split; [lia|]]]; [repeat constructor; cbn; intuition lia|]. intros j H. intuition lia. Qed.

(** After all secondary threads were released a task with priority makes no new one, although none is left to execute it, and no sweep of the monitor changes this. *)
Definition keeps_going (lb : clabel) : Prop := match lb with CCall _ (ORelease _) | CCall _ (OCreate _) => False | _ => True end.
Definition in_release (p : cpc) : bool := match p with QRLock _ | QSweep _ _ _ | QJoin _ _ _ _ | QCheck _ _ | QMark _ _ _ _ | QSize _ | QCLock _ _ | QMake _ _ _ => true | _ => false end.
Lemma stays room s lb s' : keeps_going lb -> (forall a, in_release (c_pc s a) = false) -> (forall j, In j (c_list s) -> c_told s j = true) -> cstep room s lb = Next s' ->
  c_list s' = c_list s /\ (forall a, in_release (c_pc s' a) = false) /\ (forall j, In j (c_list s) -> c_told s' j = true).
Proof.
  intros K P T S.
  assert (UP : forall a p, in_release p = false -> forall b, in_release (updA (c_pc s) a p b) = false) by (intros a p E b; unfold updA; destruct (actor_eq b a); auto).
  destruct lb as [a o|a fz|j|j|j]; cbn [cstep] in S.
  - destruct (c_pc s a); try discriminate. destruct (match a with AMain _ => true | ASec j0 => match c_ph s j0 with STask => j0 <? c_next s | _ => false end end); [|discriminate]. injection S as <-. split; [reflexivity|]. split; [|exact T].
    apply UP. destruct o; [destruct K|destruct K|reflexivity].
  - pose proof (P a) as PA. destruct (c_pc s a) as [|n|n real|n k l0|n|n todo l0|n j todo l0|n l0|n todo marked l0| |[|j r] l0|j todo l0]; try discriminate PA; try discriminate S.
    + unfold lock in S. destruct (c_mx s); [discriminate|]. injection S as <-. split; [reflexivity|]. split; [apply UP; reflexivity|exact T].
    + injection S as <-. split; [reflexivity|]. split; [apply UP; reflexivity|exact T].
    + injection S as <-. destruct (fz && negb (c_told s j)) eqn:E; [|split; [reflexivity|]; split; [apply UP; reflexivity|exact T]].
      apply andb_true_iff in E. destruct E as [_ E]. apply negb_true_iff in E. cbn [erase c_list c_pc c_told]. split.
      * apply drop_none. intros I. rewrite T in E by exact I. discriminate E.
      * split; [apply UP; reflexivity|]. intros i I. unfold upd. destruct (Nat.eqb i j); auto.
    + unfold join in S. destruct (actor_eq a (ASec j)); [discriminate|]. destruct (c_ph s j); try discriminate. injection S as <-. split; [reflexivity|]. split; [apply UP; reflexivity|exact T].
  - destruct ((j <? c_next s) && negb (c_told s j)); [|discriminate]. destruct (c_ph s j); try discriminate. injection S as <-. auto.
  - destruct (c_ph s j); try discriminate. destruct (c_pc s (ASec j)); try discriminate. injection S as <-. auto.
  - destruct (c_told s j); [|discriminate]. destruct (c_ph s j); try discriminate. injection S as <-. auto.
Qed.
Lemma stays_run room ls : forall s s', Forall keeps_going ls -> (forall a, in_release (c_pc s a) = false) -> (forall j, In j (c_list s) -> c_told s j = true) -> crun room s ls = Next s' ->
  c_list s' = c_list s /\ forall j, In j (c_list s) -> c_told s' j = true.
Proof.
  induction ls as [|x r IH]; intros s s' F P T; cbn [crun]; [injection 1 as <-; auto|]. inversion F as [|? ? F1 F2]; subst. destruct (cstep room s x) as [s1| |] eqn:S; try discriminate. intros R.
  destruct (stays room s x s1 F1 P T S) as (A & B & C). rewrite <- A in C. destruct (IH s1 s' F2 B C R) as [D E]. split; [congruence|]. rewrite <- A. exact E.
Qed.
Theorem C93_priority_refuted : exists ls s, crun 4 c_init ls = Next s /\ (forall a, c_pc s a = QNone) /\
  forall ls' s', Forall keeps_going ls' -> crun 4 s ls' = Next s' -> filter (fun j => negb (c_told s' j)) (c_list s') = [] /\ priority_makes (c_list s') = false.
Proof.
  set (ls := whole (AMain 0) (coordinator 2) 5 ++ whole (AMain 0) (coordinator (-2)) 8 ++ [CExit 0; CExit 1]).
  assert (X : exists s, crun 4 c_init ls = Next s /\ (forall a, c_pc s a = QNone) /\ c_list s = [0; 1] /\ c_told s 0 = true /\ c_told s 1 = true)
    by (eexists; split; [vm_compute; reflexivity|]; split; [intros [[|u]|j]; reflexivity|]; auto).
  destruct X as (s & R & Q). exists ls, s. split; [exact R|].
  destruct Q as (P & L & T0 & T1). split; [exact P|]. intros ls' s' F R2.
  destruct (stays_run 4 ls' s s' F) as [A B]; [intros a; rewrite P; reflexivity|rewrite L; intros j [<-|[<-|[]]]; assumption|exact R2|].
  rewrite A, L. split; [|reflexivity]. rewrite L in B. cbn [filter]. rewrite (B 0), (B 1); [reflexivity|right; left; reflexivity|left; reflexivity].
Qed.

Print Assumptions C93_history.
Print Assumptions C93_release.
Print Assumptions C93_created.
Print Assumptions C93_create_partial.
Print Assumptions C93_room_refuted.
Print Assumptions C93_no_crash_partial.
Print Assumptions C93_ends_partial.
Print Assumptions C93_crash_refuted.
Print Assumptions C93_stuck_refuted.
Print Assumptions C93_recreate_refuted.
Print Assumptions C93_recreate_partial.
Print Assumptions C93_priority_refuted.
