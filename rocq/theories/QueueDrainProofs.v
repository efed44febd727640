(** Every call on a queue can come to its end. *)
From Verif Require Export QueueProofs.
Local Open Scope nat_scope.
Local Open Scope list_scope.

Definition wlast (o : qop) : nat := match o with OPush _ true => 4 | _ => 1 end.
Definition wload (o : qop) : nat := match o with OPush vs _ => length vs | OTryPush _ => 1 | OPop n | OSteal n => n | _ => 0 end.
Definition wt (n : nat) (p : qpc) : nat :=
  match p with
  | PIdle => 0
  | PTest o => wload o + wlast o + 3
  | PTry o => wload o + wlast o + 2
  | PIn o todo k _ => length todo + k + wlast o + 1
  | PUnlock o _ => wlast o
  | PNotify _ _ => 3
  | PLock => 8 | PWake false => 8 | PEval false => 7 | PSleep => 6 | PWake true => 5 | PEval true => 4 | PFail => 1
  | PRLock => 2 * n + 3 | PRIn => 2 * n + 2 | PRNotify => 2 * n + 1
  end.
Fixpoint sumw (g : qpc -> nat) (f : nat -> qpc) (k m : nat) : nat := match m with 0 => 0 | S j => g (f k) + sumw g f (S k) j end.
Lemma sumw_same g f f' m : forall k, (forall u, k <= u < k + m -> f u = f' u) -> sumw g f k m = sumw g f' k m.
Proof. induction m as [|m IH]; intros k H; cbn [sumw]; [reflexivity|]. rewrite (H k) by lia. rewrite (IH (S k)); [reflexivity|]. intros u U. apply H. lia. Qed.
Lemma sumw_upd g f t p m : forall k, k <= t < k + m -> sumw g (upd f t p) k m + g (f t) = sumw g f k m + g p.
Proof.
  induction m as [|m IH]; intros k H; [lia|]. cbn [sumw]. destruct (Nat.eq_dec k t) as [->|N].
  - rewrite upd_same. rewrite (sumw_same g (upd f t p) f); [lia|]. intros u U. apply upd_other. lia.
  - rewrite (upd_other f t p k) by congruence. specialize (IH (S k)). lia.
Qed.
Lemma sumw_wake n f m : forall k, sumw (wt n) (wake_all f) k m <= sumw (wt n) f k m + 2 * m.
Proof. induction m as [|m IH]; intros k; cbn [sumw]; [lia|]. specialize (IH (S k)). assert (wt n (wake_all f k) <= wt n (f k) + 2) by (unfold wake_all; destruct (f k); cbn [wt]; lia). lia. Qed.
Definition load (n : nat) (s : qst) : nat := sumw (wt n) (q_pc s) 0 n.

Ltac wdec n s t p P := pose proof (sumw_upd (wt n) (q_pc s) t p n 0 ltac:(lia)) as SU; rewrite P in SU; cbn [wt] in SU.
Lemma step_dec n s t w s' : inv s -> (q_own s = None \/ q_own s = Some t) -> qstep n s (QStep t w) = Some s' -> load n s' < load n s.
Proof.
  intros V O H. unfold load. cbn [qstep] in H. destruct (Nat.ltb t n) eqn:L; [|discriminate]. apply Nat.ltb_lt in L.
  assert (PLK : forall t1, holds (q_pc s t) = false -> q_own s = Some t1 -> False).
  { intros t1 X K. destruct O as [O|O]; [congruence|]. apply (i_own s V) in O. congruence. }
  destruct (q_pc s t) as [|o|o|o todo k got|o got|o got| |late| |late| | | |] eqn:P; try discriminate.
  - destruct (q_l s); injection H as <-; cbn [ret set_pc q_pc].
    + wdec n s t PIdle P. lia.
    + wdec n s t (PTry o) P. lia.
  - destruct (q_own s) eqn:Q; [exfalso; eapply PLK; eauto|]. injection H as <-. cbn [q_pc]. wdec n s t (enter o) P. destruct o; cbn [enter wt wload length] in *; lia.
  - assert (TK : forall j g tr, S j = k -> sumw (wt n) (upd (q_pc s) t (PIn o todo j g)) 0 n < sumw (wt n) (q_pc s) 0 n /\ tr = tr :> nat).
    { intros j g tr <-. wdec n s t (PIn o todo j g) P. lia. }
    assert (TU : forall g, sumw (wt n) (upd (q_pc s) t (PUnlock o g)) 0 n < sumw (wt n) (q_pc s) 0 n).
    { intros g. wdec n s t (PUnlock o g) P. lia. }
    assert (TT : forall x r, todo = x :: r -> sumw (wt n) (upd (q_pc s) t (PIn o r k got)) 0 n < sumw (wt n) (q_pc s) 0 n).
    { intros x r ->. wdec n s t (PIn o r k got) P. cbn [length] in SU. lia. }
    destruct o as [vs b|v|m|m| |].
    + destruct todo as [|x r]; injection H as <-; cbn [set_pc q_pc]; [apply TU|eapply TT; reflexivity].
    + destruct todo as [|x r]; injection H as <-; cbn [set_pc q_pc]; [apply TU|eapply TT; reflexivity].
    + destruct k as [|j]; [|destruct (q_l s)]; injection H as <-; cbn [set_pc q_pc]; try apply TU. exact (proj1 (TK j _ 0 eq_refl)).
    + destruct k as [|j]; [|destruct (rev (q_l s))]; injection H as <-; cbn [set_pc q_pc]; try apply TU. exact (proj1 (TK j _ 0 eq_refl)).
    + destruct todo as [|x r]; injection H as <-; cbn [set_pc q_pc]; [apply TU|eapply TT; reflexivity].
    + destruct todo as [|x r]; injection H as <-; cbn [set_pc q_pc]; [apply TU|eapply TT; reflexivity].
  - assert (TI : sumw (wt n) (upd (q_pc s) t PIdle) 0 n < sumw (wt n) (q_pc s) 0 n).
    { wdec n s t PIdle P. assert (1 <= wlast o) by (destruct o as [vs [|]| | | | |]; cbn; lia). lia. }
    destruct o as [vs [|]| | | | |]; injection H as <-; cbn [q_pc]; try exact TI. wdec n s t (PNotify (OPush vs true) got) P. cbn [wlast] in SU. lia.
  - destruct w as [x|].
    + destruct (Nat.ltb x n) eqn:LX; cbn [andb] in H; [|discriminate]. apply Nat.ltb_lt in LX. destruct (q_pc s x) eqn:PX; cbn [is_sleep] in H; try discriminate. injection H as <-. cbn [ret set_pc q_pc].
      pose proof (sumw_upd (wt n) (q_pc s) x (PWake false) n 0 ltac:(lia)) as S1. rewrite PX in S1. cbn [wt] in S1.
      pose proof (sumw_upd (wt n) (upd (q_pc s) x (PWake false)) t PIdle n 0 ltac:(lia)) as S2. rewrite (upd_other (q_pc s) x _ t) in S2 by congruence. rewrite P in S2. cbn [wt] in S2. lia.
    + destruct (existsb (fun x => is_sleep (q_pc s x)) (seq 0 n)); [discriminate|]. injection H as <-. cbn [ret q_pc]. wdec n s t PIdle P. lia.
  - destruct (q_own s); [discriminate|]. injection H as <-. cbn [q_pc]. wdec n s t (PEval false) P. lia.
  - destruct (q_ready s).
    + destruct (q_l s) as [|x r].
      * destruct late; injection H as <-; cbn [set_pc q_pc].
        -- wdec n s t PFail P. lia.
        -- wdec n s t PSleep P. lia.
      * injection H as <-. cbn [q_pc]. wdec n s t (PUnlock OTimed [x]) P. cbn [wlast] in SU. destruct late; lia.
    + injection H as <-. cbn [set_pc q_pc]. wdec n s t PFail P. destruct late; lia.
  - destruct (q_own s); [discriminate|]. injection H as <-. cbn [q_pc]. wdec n s t (PEval late) P. destruct late; lia.
  - injection H as <-. cbn [ret q_pc]. wdec n s t PIdle P. lia.
  - destruct (q_own s); [discriminate|]. injection H as <-. cbn [q_pc]. wdec n s t PRIn P. lia.
  - injection H as <-. cbn [q_pc]. wdec n s t PRNotify P. lia.
  - injection H as <-. cbn [ret q_pc]. pose proof (sumw_wake n (q_pc s) n 0) as SW.
    pose proof (sumw_upd (wt n) (wake_all (q_pc s)) t PIdle n 0 ltac:(lia)) as SU. unfold wake_all in SU at 2. rewrite P in SU. cbn [wt] in SU. lia.
Qed.
Lemma drain n : forall m s, load n s <= m -> inv s -> (forall t, n <= t -> q_pc s t = PIdle) ->
  exists ls s', Forall drain_label ls /\ qrun n s ls = Some s' /\ (forall t, q_pc s' t = PIdle).
Proof.
  induction m as [m IH] using lt_wf_ind; intros s LE V OUT.
  assert (D : (forall t, t < n -> q_pc s t = PIdle) \/ exists t, t < n /\ q_pc s t <> PIdle).
  { clear. induction n as [|n IH]; [left; lia|]. destruct IH as [A|(t & L & N)]; [|right; exists t; split; [lia|exact N]].
    destruct (q_pc s n) eqn:E; try (right; exists n; split; [lia|congruence]). left. intros t L. destruct (Nat.eq_dec t n) as [->|X]; [exact E|apply A; lia]. }
  destruct D as [A|(t & L & N)].
  { exists [], s. split; [constructor|]. split; [reflexivity|]. intros t. destruct (Nat.lt_ge_cases t n); auto. }
  assert (ONE : exists lb s1, drain_label lb /\ qstep n s lb = Some s1 /\ load n s1 < load n s).
  { destruct (is_sleep (q_pc s t)) eqn:SL.
    - destruct (q_pc s t) eqn:P; try discriminate SL. exists (QLate t), (set_pc s t (PWake true)). split; [exact I|]. split.
      + cbn [qstep]. rewrite (proj2 (Nat.ltb_lt t n) L), P. reflexivity.
      + unfold load. cbn [set_pc q_pc]. wdec n s t (PWake true) P. lia.
    - assert (N2 : q_pc s t <> PSleep) by (intros K; rewrite K in SL; discriminate). destruct (progress n s V OUT) as (u & w & s1 & S & O); [eauto|].
      exists (QStep u w), s1. split; [exact I|]. split; [exact S|]. eapply step_dec; eauto. }
  destruct ONE as (lb & s1 & DL & S & DEC).
  destruct (IH (load n s1)) with (s := s1) as (ls & s' & F & R & Z); [lia|lia|eapply step_inv; eauto|eapply step_out; eauto|].
  exists (lb :: ls), s'. split; [constructor; assumption|]. split; [cbn [qrun]; rewrite S; exact R|exact Z].
Qed.

(** A thread that is alone. *)
Lemma run_cons n s lb s1 ls s' : qstep n s lb = Some s1 -> qrun n s1 ls = Some s' -> qrun n s (lb :: ls) = Some s'.
Proof. intros A B. cbn [qrun]. rewrite A. exact B. Qed.
Lemma pop_loop n t m : t < n -> forall k (got : list nat) s, q_pc s t = PIn (OPop m) [] k got ->
  exists ls s', Forall (by_t t) ls /\ qrun n s ls = Some s' /\ q_l s' = skipn k (q_l s) /\ q_own s' = None /\
    q_tr s' = q_tr s ++ [VLin t (OPop m) (got ++ firstn k (q_l s)); VRet t (Some (got ++ firstn k (q_l s)))].
Proof.
  intros L. assert (LB : Nat.ltb t n = true) by (apply Nat.ltb_lt, L).
  assert (FIN : forall got s, q_pc s t = PIn (OPop m) [] 0 got \/ (exists k, q_pc s t = PIn (OPop m) [] k got /\ q_l s = []) ->
    exists ls s', Forall (by_t t) ls /\ qrun n s ls = Some s' /\ q_l s' = q_l s /\ q_own s' = None /\ q_tr s' = q_tr s ++ [VLin t (OPop m) got; VRet t (Some got)]).
  { intros got s P. exists [QStep t None; QStep t None].
    assert (S1 : qstep n s (QStep t None) = Some (set_pc s t (PUnlock (OPop m) got))).
    { cbn [qstep]. rewrite LB. destruct P as [P|(k & P & Q)]; rewrite P; [destruct (q_l s); reflexivity|rewrite Q; destruct k; reflexivity]. }
    eexists. split; [repeat constructor|]. split.
    - eapply run_cons; [exact S1|]. cbn [qrun qstep]. rewrite LB. cbn [set_pc q_pc]. rewrite upd_same. reflexivity.
    - cbn [q_l q_own q_tr set_pc]. split; [reflexivity|]. split; [reflexivity|]. rewrite <- app_assoc. reflexivity. }
  induction k as [|k IH]; intros got s P.
  - destruct (FIN got s (or_introl P)) as (ls & s' & A & B & C & D & E). exists ls, s'. cbn [firstn skipn]. rewrite app_nil_r. auto.
  - destruct (q_l s) as [|x r] eqn:Q.
    + destruct (FIN got s) as (ls & s' & A & B & C & D & E); [right; eauto|]. exists ls, s'. cbn [firstn skipn]. rewrite app_nil_r. rewrite C. auto.
    + destruct (IH (got ++ [x]) (mkQ (q_own s) r (q_ready s) (upd (q_pc s) t (PIn (OPop m) [] k (got ++ [x]))) (q_tr s))) as (ls & s' & A & B & C & D & E); [cbn [q_pc]; apply upd_same|].
      exists (QStep t None :: ls), s'. split; [constructor; [reflexivity|exact A]|]. split; [eapply run_cons; [|exact B]; cbn [qstep]; rewrite LB, P, Q; reflexivity|].
      cbn [q_l q_tr] in C, E. cbn [firstn skipn]. split; [exact C|]. split; [exact D|]. rewrite E, <- app_assoc. reflexivity.
Qed.
Lemma steal_loop n t m : t < n -> forall k (got : list nat) s, q_pc s t = PIn (OSteal m) [] k got ->
  exists ls s', Forall (by_t t) ls /\ qrun n s ls = Some s' /\ q_l s' = rev (skipn k (rev (q_l s))) /\ q_own s' = None /\
    q_tr s' = q_tr s ++ [VLin t (OSteal m) (got ++ firstn k (rev (q_l s))); VRet t (Some (got ++ firstn k (rev (q_l s))))].
Proof.
  intros L. assert (LB : Nat.ltb t n = true) by (apply Nat.ltb_lt, L).
  assert (FIN : forall got s, q_pc s t = PIn (OSteal m) [] 0 got \/ (exists k, q_pc s t = PIn (OSteal m) [] k got /\ rev (q_l s) = []) ->
    exists ls s', Forall (by_t t) ls /\ qrun n s ls = Some s' /\ q_l s' = q_l s /\ q_own s' = None /\ q_tr s' = q_tr s ++ [VLin t (OSteal m) got; VRet t (Some got)]).
  { intros got s P. exists [QStep t None; QStep t None].
    assert (S1 : qstep n s (QStep t None) = Some (set_pc s t (PUnlock (OSteal m) got))).
    { cbn [qstep]. rewrite LB. destruct P as [P|(k & P & Q)]; rewrite P; [destruct (rev (q_l s)); reflexivity|rewrite Q; destruct k; reflexivity]. }
    eexists. split; [repeat constructor|]. split.
    - eapply run_cons; [exact S1|]. cbn [qrun qstep]. rewrite LB. cbn [set_pc q_pc]. rewrite upd_same. reflexivity.
    - cbn [q_l q_own q_tr set_pc]. split; [reflexivity|]. split; [reflexivity|]. rewrite <- app_assoc. reflexivity. }
  induction k as [|k IH]; intros got s P.
  - destruct (FIN got s (or_introl P)) as (ls & s' & A & B & C & D & E). exists ls, s'. cbn [firstn skipn]. rewrite app_nil_r, rev_involutive. auto.
  - destruct (rev (q_l s)) as [|x r] eqn:Q.
    + destruct (FIN got s) as (ls & s' & A & B & C & D & E); [right; eauto|]. exists ls, s'. cbn [firstn skipn]. rewrite app_nil_r. rewrite C. rewrite <- Q at 1. rewrite rev_involutive. auto.
    + destruct (IH (got ++ [x]) (mkQ (q_own s) (rev r) (q_ready s) (upd (q_pc s) t (PIn (OSteal m) [] k (got ++ [x]))) (q_tr s))) as (ls & s' & A & B & C & D & E); [cbn [q_pc]; apply upd_same|].
      exists (QStep t None :: ls), s'. split; [constructor; [reflexivity|exact A]|]. split; [eapply run_cons; [|exact B]; cbn [qstep]; rewrite LB, P, Q; reflexivity|].
      cbn [q_l q_tr] in C, E. rewrite rev_involutive in C, E. cbn [firstn skipn]. split; [exact C|]. split; [exact D|]. rewrite E, <- app_assoc. reflexivity.
Qed.
Lemma push_loop n t vs : t < n -> forall todo s, q_pc s t = PIn (OPush vs false) todo 0 [] ->
  exists ls s', Forall (by_t t) ls /\ qrun n s ls = Some s' /\ q_l s' = q_l s ++ todo /\ q_own s' = None /\
    q_tr s' = q_tr s ++ [VLin t (OPush vs false) []; VRet t (Some [])].
Proof.
  intros L. assert (LB : Nat.ltb t n = true) by (apply Nat.ltb_lt, L).
  induction todo as [|x r IH]; intros s P.
  - exists [QStep t None; QStep t None]. eexists. split; [repeat constructor|]. split.
    + eapply run_cons; [cbn [qstep]; rewrite LB, P; reflexivity|]. cbn [qrun qstep]. rewrite LB. cbn [set_pc q_pc]. rewrite upd_same. reflexivity.
    + cbn [q_l q_own q_tr set_pc]. rewrite app_nil_r. split; [reflexivity|]. split; [reflexivity|]. rewrite <- app_assoc. reflexivity.
  - destruct (IH (mkQ (q_own s) (q_l s ++ [x]) (q_ready s) (upd (q_pc s) t (PIn (OPush vs false) r 0 [])) (q_tr s))) as (ls & s' & A & B & C & D & E); [cbn [q_pc]; apply upd_same|].
    exists (QStep t None :: ls), s'. split; [constructor; [reflexivity|exact A]|]. split; [eapply run_cons; [|exact B]; cbn [qstep]; rewrite LB, P; reflexivity|].
    cbn [q_l q_tr] in C, E. split; [rewrite C, <- app_assoc; reflexivity|]. split; [exact D|]. exact E.
Qed.
Lemma test_step n t o s : t < n -> q_pc s t = PTest o -> q_l s <> [] -> qstep n s (QStep t None) = Some (set_pc s t (PTry o)).
Proof. intros L P Q. cbn [qstep]. rewrite (proj2 (Nat.ltb_lt t n) L), P. destruct (q_l s); [congruence|reflexivity]. Qed.
Lemma pop_solo n t m s : t < n -> q_own s = None -> q_pc s t = PIdle -> q_l s <> [] ->
  exists ls s', Forall (by_t t) ls /\ qrun n s ls = Some s' /\ q_l s' = skipn m (q_l s) /\ q_own s' = None /\
    q_tr s' = q_tr s ++ [VCall t (OPop m); VLin t (OPop m) (firstn m (q_l s)); VRet t (Some (firstn m (q_l s)))].
Proof.
  intros L O P Q. assert (LB : Nat.ltb t n = true) by (apply Nat.ltb_lt, L).
  set (s3 := mkQ (Some t) (q_l s) (q_ready s) (upd (upd (upd (q_pc s) t (PTest (OPop m))) t (PTry (OPop m))) t (PIn (OPop m) [] m [])) (q_tr s ++ [VCall t (OPop m)])).
  destruct (pop_loop n t m L m [] s3) as (ls & s' & A & B & C & D & E); [cbn [s3 q_pc]; apply upd_same|].
  exists (QCall t (OPop m) :: QStep t None :: QStep t None :: ls), s'. split; [repeat constructor; exact A|]. split.
  - eapply run_cons; [cbn [qstep]; rewrite LB, P; reflexivity|]. cbn [start].
    eapply run_cons; [apply test_step with (1 := L); [cbn [q_pc]; apply upd_same|exact Q]|].
    eapply run_cons; [|exact B]. cbn [qstep set_pc q_pc q_l q_own q_ready q_tr]. rewrite LB, upd_same, O. reflexivity.
  - cbn [s3 q_l q_tr app] in C, E. split; [exact C|]. split; [exact D|]. rewrite E, <- app_assoc. reflexivity.
Qed.
Lemma steal_solo n t m s : t < n -> q_own s = None -> q_pc s t = PIdle -> q_l s <> [] ->
  exists ls s', Forall (by_t t) ls /\ qrun n s ls = Some s' /\ q_l s' = rev (skipn m (rev (q_l s))) /\ q_own s' = None /\
    q_tr s' = q_tr s ++ [VCall t (OSteal m); VLin t (OSteal m) (firstn m (rev (q_l s))); VRet t (Some (firstn m (rev (q_l s))))].
Proof.
  intros L O P Q. assert (LB : Nat.ltb t n = true) by (apply Nat.ltb_lt, L).
  set (s3 := mkQ (Some t) (q_l s) (q_ready s) (upd (upd (upd (q_pc s) t (PTest (OSteal m))) t (PTry (OSteal m))) t (PIn (OSteal m) [] m [])) (q_tr s ++ [VCall t (OSteal m)])).
  destruct (steal_loop n t m L m [] s3) as (ls & s' & A & B & C & D & E); [cbn [s3 q_pc]; apply upd_same|].
  exists (QCall t (OSteal m) :: QStep t None :: QStep t None :: ls), s'. split; [repeat constructor; exact A|]. split.
  - eapply run_cons; [cbn [qstep]; rewrite LB, P; reflexivity|]. cbn [start].
    eapply run_cons; [apply test_step with (1 := L); [cbn [q_pc]; apply upd_same|exact Q]|].
    eapply run_cons; [|exact B]. cbn [qstep set_pc q_pc q_l q_own q_ready q_tr]. rewrite LB, upd_same, O. reflexivity.
  - cbn [s3 q_l q_tr app] in C, E. split; [exact C|]. split; [exact D|]. rewrite E, <- app_assoc. reflexivity.
Qed.
Lemma push_solo n t vs s : t < n -> q_own s = None -> q_pc s t = PIdle ->
  exists ls s', Forall (by_t t) ls /\ qrun n s ls = Some s' /\ q_l s' = q_l s ++ vs /\ q_own s' = None /\
    q_tr s' = q_tr s ++ [VCall t (OPush vs false); VLin t (OPush vs false) []; VRet t (Some [])].
Proof.
  intros L O P. assert (LB : Nat.ltb t n = true) by (apply Nat.ltb_lt, L).
  set (s3 := mkQ (Some t) (q_l s) (q_ready s) (upd (upd (q_pc s) t (PTry (OPush vs false))) t (PIn (OPush vs false) vs 0 [])) (q_tr s ++ [VCall t (OPush vs false)])).
  destruct (push_loop n t vs L vs s3) as (ls & s' & A & B & C & D & E); [cbn [s3 q_pc]; apply upd_same|].
  exists (QCall t (OPush vs false) :: QStep t None :: ls), s'. split; [repeat constructor; exact A|]. split.
  - eapply run_cons; [cbn [qstep]; rewrite LB, P; reflexivity|]. cbn [start].
    eapply run_cons; [|exact B]. cbn [qstep q_pc q_l q_own q_ready q_tr]. rewrite LB, upd_same, O. reflexivity.
  - cbn [s3 q_l q_tr app] in C, E. split; [exact C|]. split; [exact D|]. rewrite E, <- app_assoc. reflexivity.
Qed.
