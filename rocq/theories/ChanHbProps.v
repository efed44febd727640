(** C130: what is sent is seen by those who receive it. *)
From Verif Require Import ChanHbModel ChanHbSpec ChanHbProofs.
From Coq Require Import Lia.
Local Open Scope nat_scope.
Local Open Scope list_scope.

Lemma run_ok room ls s : xrun room x_new ls = Some s -> chan_ok (x_log s).
Proof. intro E. apply v_ok. eapply xrun_inv; [apply xinv_new|exact E]. Qed.

(** In every execution of any number of threads: all accesses of the buffer of a channel are ordered by happens-before, hence
    never raced on. Whoever receives a pointer receives the oldest unread one; and whatever a thread that put it there had done
    before happens before whatever the receiver does afterwards.
    Missing for the full property: [C130_reuse_refuted] and [C130_shared_refuted]. *)
Theorem C130_seen_partial : forall room ls s, xrun room x_new ls = Some s ->
  (forall c i j t u n n', noted (x_log s) i t n -> noted (x_log s) j u n' -> touches n c -> touches n' c -> i < j -> sooner (x_log s) i j) /\
  (forall j u c o, noted (x_log s) j u (NGot c o) ->
     (exists r, content c (firstn j (x_log s)) = o :: r) /\
     (exists i t, i < j /\ noted (x_log s) i t (NPut c o)) /\
     (forall i t, i < j -> noted (x_log s) i t (NPut c o) ->
        forall k x l y, k <= i -> nth_error (x_log s) k = Some (t, x) -> j <= l -> nth_error (x_log s) l = Some (u, y) -> sooner (x_log s) k l)).
Proof.
  intros room ls s E. pose proof (run_ok room ls s E) as K. split; [intros c i j t u n n' H1 H2 T1 T2 L; eapply (ok_ord _ K); eassumption|]. intros j u c o G. split; [eapply (ok_got _ K); exact G|]. split.
  - destruct (got_put _ _ _ _ _ K G) as (i & t & L & P & _). eauto.
  - intros i t L P k x l y LK HK LL HL. assert (S : sooner (x_log s) i j) by (eapply (ok_ord _ K c); [exact P|exact G|reflexivity|reflexivity|exact L]).
    assert (S1 : sooner (x_log s) k j) by (destruct (Nat.eq_dec k i) as [->|N]; [exact S|eapply so_trans; [eapply so_thread; [|exact HK|exact P]; lia|exact S]]).
    destruct (Nat.eq_dec j l) as [<-|N]; [exact S1|]. eapply so_trans; [exact S1|]. eapply so_thread; [|exact G|exact HL]. lia.
Qed.
(** An object that is handed on is never raced on: that is, if only its holder reads, writes or sends it. *)
Theorem C130_handed_partial : forall room ls s o t0, xrun room x_new ls = Some s -> handed_on o t0 (x_log s) -> ~ obj_race (x_log s) o.
Proof.
  intros room ls s o t0 E H (i & j & t & u & w & w' & NE & H1 & H2 & _ & N1 & N2). pose proof (run_ok room ls s E) as K.
  assert (U1 : use_at (x_log s) o i) by (exists t, w; exact H1). assert (U2 : use_at (x_log s) o j) by (exists u, w'; exact H2).
  destruct (Nat.lt_gt_cases i j) as [X _]. destruct (X NE) as [L|L]; [apply N1|apply N2]; eapply handed_ordered; eassumption.
Qed.
(** Nor is one that is written only by one thread before it sends it, to however many channels, and only read by those who
    received it, directly or from others who received it. *)
Theorem C130_frozen_partial : forall room ls s o t, xrun room x_new ls = Some s -> frozen o t (x_log s) -> ~ obj_race (x_log s) o.
Proof.
  intros room ls s o t E F (i & j & a & b & w & w' & NE & H1 & H2 & W & N1 & N2). pose proof (run_ok room ls s E) as K.
  assert (G : forall i j a b w', noted (x_log s) i a (NUse o true) -> noted (x_log s) j b (NUse o w') -> i <> j -> sooner (x_log s) i j \/ sooner (x_log s) j i).
  { clear - K F. intros i j a b w' H1 H2 NE. destruct (proj1 F i a H1) as [-> _]. destruct (Nat.eq_dec b t) as [->|NB].
    - destruct (Nat.lt_gt_cases i j) as [X _]. destruct (X NE) as [L|L]; [left|right]; eapply so_thread; eassumption.
    - left. eapply frozen_after; [exact K|exact F|exact H2|left; eauto|exact NB|exact H1]. }
  destruct W as [-> | ->].
  - destruct (G i j a b w' H1 H2 NE) as [X|X]; contradiction.
  - destruct (G j i b a w H2 H1 (not_eq_sym NE)) as [X|X]; contradiction.
Qed.
(** The sender keeps a pointer to what it sent. If it uses the object again while the receiver writes, that is a data race: from
    every state in which nobody is in a call, over every empty channel. *)
Theorem C130_reuse_refuted : forall room s t u c o g w, x_quiet s -> x_q s c = [] -> 0 < room c -> t <> u ->
  exists ls s', xrun room s ls = Some s' /\ x_quiet s' /\ obj_race (x_log s') o /\ ls = send_all t c o g ++ recv_all u c ++ [XUse u o true; XUse t o w].
Proof.
  intros room s t u c o g w Q E R NE. destruct (send_run room s t c o g Q) as (s1 & E1 & Q1 & C1 & _); [rewrite E; exact R|]. rewrite E in C1.
  destruct (recv_run room s1 u c o [] Q1 C1) as (s2 & m & E2 & Q2 & _). destruct (use_run room s2 u t o w Q2) as (s3 & E3 & Q3 & L3).
  eexists. exists s3. split; [|split; [exact Q3|split; [rewrite L3; apply adjacent_race; auto|reflexivity]]]. now rewrite xrun_app, E1, xrun_app, E2.
Qed.
(** All subscribers of a topic receive the same object. If two of them use it and one writes, that is a data race. *)
Theorem C130_shared_refuted : forall room s t u v c d o g w, x_quiet s -> x_q s c = [] -> x_q s d = [] -> 0 < room c -> 0 < room d -> c <> d -> u <> v ->
  exists ls s', xrun room s ls = Some s' /\ x_quiet s' /\ obj_race (x_log s') o /\ ls = (send_all t c o g ++ send_all t d o g) ++ recv_all u c ++ recv_all v d ++ [XUse u o true; XUse v o w].
Proof.
  intros room s t u v c d o g w Q EC ED RC RD CD NE. destruct (send_run room s t c o g Q) as (s1 & E1 & Q1 & C1 & D1); [rewrite EC; exact RC|]. rewrite EC in C1.
  destruct (send_run room s1 t d o g Q1) as (s2 & E2 & Q2 & C2 & D2); [rewrite D1, ED by auto; exact RD|]. rewrite D1, ED in C2 by auto. rewrite <- D2 in C1 by exact CD.
  destruct (recv_run room s2 u c o [] Q2 C1) as (s3 & m3 & E3 & Q3 & _ & D3 & _). rewrite <- D3 in C2 by auto. destruct (recv_run room s3 v d o [] Q3 C2) as (s4 & m4 & E4 & Q4 & _).
  destruct (use_run room s4 u v o w Q4) as (s5 & E5 & Q5 & L5). eexists. exists s5. split; [|split; [exact Q5|split; [rewrite L5; now apply adjacent_race|reflexivity]]]. rewrite !xrun_app, E1, E2, xrun_app, E3, xrun_app, E4. exact E5.
Qed.

(** Thread 0 writes object 7 and hands it to thread 1 through channel 2, which was full, so that it had to wait; thread 1 writes it
    and hands it back through channel 3. *)
Definition c130_room (c : nat) : nat := 1.
Definition c130_pass : list xlab :=
  send_all 0 2 5 SWait ++ [XUse 0 7 true; XSend 0 2 7 SWait; XGo 0; XGo 0] ++ recv_all 1 2 ++ [XGo 0; XGo 0; XGo 0; XGo 0] ++ recv_all 1 2 ++ [XUse 1 7 true] ++ send_all 1 3 7 SDrop ++ recv_all 0 3 ++ [XUse 0 7 false].
(** Checking the conditions on a given log. *)
Definition about (o : nat) (e : nat * cact) : bool := match snd e with Note (NUse o' _) | Note (NPut _ o') => Nat.eqb o o' | _ => false end.
Definition handed_check (o t0 : nat) (m : clog) : bool :=
  forallb (fun i => match nth_error m i with
                    | Some e => negb (about o e) || match holder o t0 (firstn i m) with Some h => Nat.eqb h (fst e) | None => false end
                    | None => true end) (seq 0 (length m)).
Lemma handed_checked o t0 m : handed_check o t0 m = true -> handed_on o t0 m.
Proof.
  intros H i t n N A. unfold handed_check in H. rewrite forallb_forall in H. assert (L : i < length m) by (apply nth_error_Some; unfold noted in N; congruence). specialize (H i ltac:(apply in_seq; lia)). unfold noted in N. rewrite N in H. cbn [fst] in H.
  assert (about o (t, Note n) = true) as AB by (destruct A as [(w & ->)|(c & ->)]; apply Nat.eqb_refl). rewrite AB in H. cbn in H. destruct (holder o t0 (firstn i m)); [|discriminate]. apply Nat.eqb_eq in H. now subst.
Qed.
Definition frozen_check (o t : nat) (m : clog) : bool :=
  forallb (fun i => match nth_error m i with
                    | Some (u, Note (NUse o' true)) => negb (Nat.eqb o o') || (Nat.eqb u t && forallb (fun k => match nth_error m k with Some (v, Note (NPut _ o2)) => negb (Nat.eqb v t && Nat.eqb o2 o) | _ => true end) (seq 0 i))
                    | _ => true end) (seq 0 (length m)) &&
  forallb (fun i => match nth_error m i with
                    | Some e => negb (about o e) || Nat.eqb (fst e) t || existsb (fun k => match nth_error m k with Some (v, Note (NGot _ o2)) => Nat.eqb v (fst e) && Nat.eqb o2 o | _ => false end) (seq 0 i)
                    | None => true end) (seq 0 (length m)).
Lemma frozen_checked o t m : frozen_check o t m = true -> frozen o t m.
Proof.
  intro H. apply andb_true_iff in H. destruct H as [H1 H2]. rewrite forallb_forall in H1, H2. split.
  - intros i u N. assert (L : i < length m) by (apply nth_error_Some; unfold noted in N; congruence). specialize (H1 i ltac:(apply in_seq; lia)). unfold noted in N. rewrite N, Nat.eqb_refl in H1. cbn in H1. apply andb_true_iff in H1. destruct H1 as [U F]. apply Nat.eqb_eq in U. split; [exact U|].
    intros k c P. rewrite forallb_forall in F. destruct (Nat.lt_ge_cases i k) as [X|X]; [exact X|exfalso]. unfold noted in P. assert (k <> i) by congruence. specialize (F k ltac:(apply in_seq; lia)). rewrite P, !Nat.eqb_refl in F. discriminate.
  - intros i u n N A NE. assert (L : i < length m) by (apply nth_error_Some; unfold noted in N; congruence). specialize (H2 i ltac:(apply in_seq; lia)). unfold noted in N. rewrite N in H2. cbn [fst] in H2.
    assert (about o (u, Note n) = true) as AB by (destruct A as [(w & ->)|(c & ->)]; apply Nat.eqb_refl). rewrite AB in H2. apply Nat.eqb_neq in NE. rewrite NE in H2. cbn in H2. apply existsb_exists in H2. destruct H2 as (k & IK & H2). apply in_seq in IK.
    destruct (nth_error m k) as [[v [[]|?|?]]|] eqn:EK; try discriminate. apply andb_true_iff in H2. destruct H2 as [X Y]. apply Nat.eqb_eq in X, Y. subst. exists k, c. split; [lia|exact EK].
Qed.
Example C130_case : exists s, xrun c130_room x_new c130_pass = Some s /\ x_quiet s /\ handed_on 7 0 (x_log s) /\ content 2 (x_log s) = [] /\ (exists i, noted (x_log s) i 1 (NGot 2 7)) /\ exists i, noted (x_log s) i 0 (NGot 3 7).
Proof.
  eexists. split; [vm_compute; reflexivity|]. split; [|split; [|split; [|split]]].
  - split; cbn; [intro c; destruct c as [|[|[|[|c]]]]; reflexivity|intro t; destruct t as [|[|t]]; reflexivity].
  - apply handed_checked. vm_compute. reflexivity.
  - vm_compute. reflexivity.
  - exists 18. vm_compute. reflexivity.
  - exists 27. vm_compute. reflexivity.
Qed.
(** Thread 0 writes object 7 and publishes it to channels 2 and 3; threads 1 and 2 receive and read it; thread 2 sends it on to 3. *)
Definition c130_pub : list xlab :=
  [XUse 0 7 true] ++ send_all 0 2 7 SReplace ++ send_all 0 3 7 SReplace ++ recv_all 2 3 ++ [XUse 0 7 false; XUse 2 7 false] ++ recv_all 1 2 ++ [XUse 1 7 false] ++ send_all 2 4 7 SWait ++ recv_all 3 4 ++ [XUse 3 7 false].
Example C130_case_frozen : exists s, xrun c130_room x_new c130_pub = Some s /\ x_quiet s /\ frozen 7 0 (x_log s).
Proof.
  eexists. split; [vm_compute; reflexivity|]. split.
  - split; cbn; [intro c; destruct c as [|[|[|[|[|c]]]]]; reflexivity|intro t; destruct t as [|[|[|[|t]]]]; reflexivity].
  - apply frozen_checked. vm_compute. reflexivity.
Qed.
Example C130_case_quiet : x_quiet x_new /\ x_q x_new 2 = [] /\ 0 < c130_room 2.
Proof. split; [split; reflexivity|]. split; [reflexivity|]. apply Nat.ltb_lt. reflexivity. Qed.
Print Assumptions C130_seen_partial.
Print Assumptions C130_handed_partial.
Print Assumptions C130_frozen_partial.
Print Assumptions C130_reuse_refuted.
Print Assumptions C130_shared_refuted.
