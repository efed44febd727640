(** Properties C29 (bounded FIFO), C61 (capacity) and C62 (no lost wake-up) of the message ring buffer. *)
From Verif Require Import RingProofs.
From Coq Require Import Lia.
Local Open Scope nat_scope.
Local Open Scope list_scope.

(** C29, one caller: for every capacity of at least two and every history, nothing is undefined, every answer is that of the
    bounded queue, the buffer never holds more than c-1 messages, and the indices stay inside. *)
Theorem C29_sequential : forall c, 2 <= c -> forall h,
  exists s outs, rb_run (rb_new c) h = Some (s, outs) /\
    (forall h1 o h2, h = h1 ++ o :: h2 -> nth_error outs (length h1) = Some (q_answer c (q_after c (rev h1)) o)) /\
    length (q_after c (rev h)) <= c - 1 /\ rb_head s < c /\ rb_tail s < c /\ length (rb_cells s) = c.
Proof.
  intros c Hc h. destruct (rb_run_rep c Hc h [] (rb_new c)) as [s [E R]]; [apply rep_new; lia|]. rewrite app_nil_r in R.
  exists s, (q_answers c [] h). split; [easy|]. split; [|split; [|split; [|split]]].
  - intros h1 o h2 ->. rewrite q_answers_nth. now rewrite app_nil_r.
  - now apply q_bound.
  - apply R.
  - rewrite (r_tail _ _ _ R). apply Nat.mod_upper_bound. lia.
  - apply R.
Qed.
Example C29_case :
  match rb_run (rb_new 3) [RPush 1 SWait; RPush 2 SDrop; RPush 3 SDrop; RPush 4 SReplace; RPop; RPush 5 SWait; RPush 6 SWait; RPop; RPop; RPop] with
  | Some (_, l) => l = [RPushed PStored; RPushed PStored; RPushed PDropped; RPushed PStored; RGot 2; RPushed PStored; RPushed PBlocked; RGot 4; RGot 5; RTimeout]
  | None => False
  end.
Proof. reflexivity. Qed.

Lemma outs_true n : forall ls s s', c_run n s ls = Some s' -> (forall t v, ~ In (CPush t v SReplace) ls) ->
  (forall o, In o (c_outs s) -> fst o = true) -> forall o, In o (c_outs s') -> fst o = true.
Proof.
  assert (Hst : forall t v s s', c_store t v s = Some s' -> c_outs s' = c_outs s).
  { intros t v s s' E. unfold c_store in E. destruct (rb_store v (c_rb s)); [|discriminate]. now injection E as <-. }
  assert (Htk : forall t s s', c_take t s = Some s' -> exists x, c_outs s' = c_outs s ++ [(true, x)]).
  { intros t s s' E. unfold c_take in E. destruct (rb_take (c_rb s)) as [[b x]|]; [|discriminate]. injection E as <-. now exists x. }
  assert (Hk : forall t s s', c_take t s = Some s' -> (forall o, In o (c_outs s) -> fst o = true) -> forall o, In o (c_outs s') -> fst o = true).
  { intros t s s' E H o Hi. apply Htk in E. destruct E as [x E]. rewrite E in Hi. apply in_app_or in Hi. destruct Hi as [Hi|[<-|[]]]; [auto|easy]. }
  induction ls as [|l r IH]; intros s s' E Hn H; cbn in E; [now injection E as <-|].
  destruct (c_step n s l) as [s1|] eqn:E1; [|discriminate]. apply (IH s1 s' E); [intros t v Hi; apply (Hn t v); now right|].
  assert (Hl : forall t v, l <> CPush t v SReplace) by (intros t v ->; apply (Hn t v); now left). clear E IH.
  destruct l as [t v g|t|t|t|t|t w]; cbn [c_step] in E1.
  - destruct (negb _); [discriminate|]. destruct (c_th s t); try discriminate. destruct (rb_full (c_rb s)) as [[]|]; try discriminate.
    + destruct g; [now injection E1 as <-|now destruct (Hl t v)|now injection E1 as <-].
    + apply Hst in E1. now rewrite E1.
  - destruct (negb _); [discriminate|]. destruct (c_th s t); try discriminate. destruct (rb_empty (c_rb s)); [now injection E1 as <-|now apply (Hk t s)].
  - destruct (c_th s t); try discriminate.
    + destruct (rb_full (c_rb s)) as [[]|]; try discriminate; [now injection E1 as <-|]. apply Hst in E1. now rewrite E1.
    + destruct (rb_empty (c_rb s)); [now injection E1 as <-|now apply (Hk t s)].
  - destruct (c_th s t); try discriminate; now injection E1 as <-.
  - destruct (c_th s t); try discriminate; (destruct (rb_empty (c_rb s)); [now injection E1 as <-|now apply (Hk t s)]).
  - destruct (c_th s t); try discriminate; destruct w as [u|]; try (destruct (c_th s u); try discriminate; now injection E1 as <-);
      (destruct (existsb _ _); [discriminate|now injection E1 as <-]).
Qed.
(** C29, any number of threads and any schedule of pushes, pops, wake-ups and timeouts: the messages that left the buffer,
    followed by those in it, are the messages stored, in the order they were stored; at most c-1 are in it. Messages leave
    only by a pop, unless some push uses REPLACE. *)
Theorem C29_concurrent : forall c n ls s, 2 <= c -> c_run n (c_new c) ls = Some s ->
  exists q, map Some (c_ins s) = map snd (c_outs s) ++ map Some q /\ length q <= c - 1 /\
    ((forall t v, ~ In (CPush t v SReplace) ls) -> forall o, In o (c_outs s) -> fst o = true).
Proof.
  intros c n ls s Hc E. assert (I : cinv n c s) by (apply (c_run_inv n c Hc ls (c_new c)); [apply cinv_new; lia|easy]).
  destruct (cv_rep _ _ _ I) as [q [R [Hl _]]]. exists q. split; [easy|]. split; [pose proof (r_size _ _ _ R); lia|].
  intros Hn. apply (outs_true n ls (c_new c)); [easy|easy|]. cbn. easy.
Qed.
(** In every reachable state the calls are defined: an idle thread can start a push or a pop, a woken thread can go on, a
    waiting pop can time out, a thread about to notify can do so. *)
Theorem C29_defined : forall c n ls s t, 2 <= c -> c_run n (c_new c) ls = Some s -> t < n ->
  match c_th s t with
  | TIdle => forall v g, c_step n s (CPush t v g) <> None /\ c_step n s (CPop t) <> None
  | TPushSleep _ => True
  | TPushWoken _ => c_step n s (CResume t) <> None
  | TPopSleep => c_step n s (CTimeout t) <> None
  | TPopWoken => c_step n s (CResume t) <> None /\ c_step n s (CTimeout t) <> None
  | TPushSig | TPopSig _ => exists w, c_step n s (CNotify t w) <> None
  end.
Proof.
  intros c n ls s t Hc E Ht. assert (I : cinv n c s) by (apply (c_run_inv n c Hc ls (c_new c)); [apply cinv_new; lia|easy]).
  destruct (cv_rep _ _ _ I) as [q [R _]]. assert (Hc0 : 0 < c) by lia. pose proof (rep_full c q _ Hc0 R) as Ef. pose proof (rep_empty c q _ Hc0 R) as Ee.
  pose proof (r_size _ _ _ R) as Hz.
  assert (Hst : forall v, length q <> c - 1 -> c_store t v s <> None).
  { intros v Hq. unfold c_store. destruct (rep_store c q (c_rb s) v R) as [b [Eb _]]; [lia|]. now rewrite Eb. }
  assert (Htk : length q <> 0 -> c_take t s <> None).
  { intros Hq. destruct q as [|x q]; [easy|]. unfold c_take. destruct (rep_take c x q (c_rb s) R) as [b [Eb _]]. now rewrite Eb. }
  assert (Hn : (t <? n) = true) by now apply Nat.ltb_lt.
  destruct (c_th s t) eqn:Et; cbn [c_step]; rewrite ?Hn, ?Et, ?Ef, ?Ee; cbn [negb].
  - intros v g. split.
    + destruct (Nat.eqb_spec (length q) (c - 1)) as [Eq|Eq]; [|now apply Hst]. destruct g; try easy.
      destruct q as [|x q]; [cbn in Eq; lia|]. rewrite (rep_head_cell _ _ _ _ R). unfold c_store. cbn [c_rb].
      destruct (rep_store c q (rb_skip (c_rb s)) v) as [b [Eb _]]; [now apply (rep_skip c x)|cbn in Eq; lia|]. now rewrite Eb.
    + destruct (Nat.eqb_spec (length q) 0) as [Eq|Eq]; [easy|now apply Htk].
  - easy.
  - destruct (Nat.eqb_spec (length q) (c - 1)) as [Eq|Eq]; [easy|now apply Hst].
  - destruct (existsb (fun u => is_pop_sleep (c_th s u)) (seq 0 n)) eqn:Ex.
    + apply existsb_exists in Ex. destruct Ex as [u [_ Eu]]. exists (Some u). destruct (c_th s u); easy.
    + exists None. easy.
  - destruct (Nat.eqb_spec (length q) 0) as [Eq|Eq]; [easy|now apply Htk].
  - destruct (Nat.eqb_spec (length q) 0) as [Eq|Eq]; split; try easy; now apply Htk.
  - destruct (existsb (fun u => is_push_sleep (c_th s u)) (seq 0 n)) eqn:Ex.
    + apply existsb_exists in Ex. destruct Ex as [u [_ Eu]]. exists (Some u). destruct (c_th s u); easy.
    + exists None. easy.
Qed.
(** A pop that finds a message returns a message (never a null pointer). *)
Theorem C29_no_null : forall c n ls s o, 2 <= c -> c_run n (c_new c) ls = Some s -> In o (c_outs s) -> exists v, snd o = Some v.
Proof.
  intros c n ls s o Hc E Hi. destruct (C29_concurrent c n ls s Hc E) as [q [Hl _]].
  assert (Hin : In (snd o) (map Some (c_ins s))) by (rewrite Hl; apply in_or_app; left; now apply in_map).
  apply in_map_iff in Hin. destruct Hin as [v [<- _]]. now exists v.
Qed.
Example C29_case3 :
  match c_run 3 (c_new 3) [CPop 0; CPush 1 7 SWait; CNotify 1 (Some 0); CPush 2 8 SWait; CPush 1 9 SWait; CNotify 2 None; CResume 0; CNotify 0 (Some 1); CResume 1] with
  | Some s => c_ins s = [7; 8; 9] /\ c_outs s = [(true, Some 7)]
  | None => False
  end.
Proof. vm_compute. easy. Qed.
Print Assumptions C29_sequential. Print Assumptions C29_concurrent. Print Assumptions C29_defined. Print Assumptions C29_no_null.

(** C62. No lost wake-up, for any number of senders and receivers: when nobody is between waiting and its next step (no thread
    woken, no notification outstanding), a receiver waits only if the buffer is empty, a sender only if it is full; so both
    kinds never wait together. *)
Theorem C62_no_lost_wakeup : forall c n ls s, 2 <= c -> c_run n (c_new c) ls = Some s ->
  (forall t, t < n -> match c_th s t with TIdle | TPushSleep _ | TPopSleep => True | _ => False end) ->
  (forall t, t < n -> c_th s t = TPopSleep -> rb_empty (c_rb s) = true) /\
  (forall t v, t < n -> c_th s t = TPushSleep v -> rb_full (c_rb s) = Some true) /\
  (forall t u v, t < n -> u < n -> c_th s t = TPopSleep -> c_th s u = TPushSleep v -> False).
Proof.
  intros c n ls s Hc E Hq. assert (I : cinv n c s) by (apply (c_run_inv n c Hc ls (c_new c)); [apply cinv_new; lia|easy]).
  destruct (cv_rep _ _ _ I) as [q [R [_ [H1 H2]]]]. assert (Hc0 : 0 < c) by lia. pose proof (rep_full c q _ Hc0 R) as Ef. pose proof (rep_empty c q _ Hc0 R) as Ee.
  assert (Z : forall f, (forall x, match x with TIdle | TPushSleep _ | TPopSleep => f x = false | _ => True end) -> cnt n f (c_th s) = 0).
  { intros f Hf. apply sumf_zero. intros t Ht. apply in_seq in Ht. specialize (Hq t ltac:(lia)). specialize (Hf (c_th s t)).
    destruct (c_th s t); try easy; now rewrite Hf. }
  rewrite (Z is_pop_woken), (Z is_push_sig) in H1 by (intros []; easy). rewrite (Z is_push_woken), (Z is_pop_sig) in H2 by (intros []; easy).
  assert (P : forall f t, t < n -> f (c_th s t) = true -> 0 < cnt n f (c_th s)).
  { intros f t Ht Hf. pose proof (sumf_in (fun t => b2n (f (c_th s t))) (seq 0 n) t) as Hs. cbn beta in Hs. rewrite Hf in Hs. cbn in Hs. unfold cnt.
    apply Hs. apply in_seq. lia. }
  assert (A : forall t, t < n -> c_th s t = TPopSleep -> length q = 0).
  { intros t Ht Et. specialize (H1 (P is_pop_sleep t Ht ltac:(now rewrite Et))). lia. }
  assert (B : forall t v, t < n -> c_th s t = TPushSleep v -> length q = c - 1).
  { intros t v Ht Et. specialize (H2 (P is_push_sleep t Ht ltac:(now rewrite Et))). pose proof (r_size _ _ _ R). lia. }
  split; [|split].
  - intros t Ht Et. rewrite Ee, (A t Ht Et). easy.
  - intros t v Ht Et. rewrite Ef, (B t v Ht Et). now rewrite Nat.eqb_refl.
  - intros t u v Ht Hu Et Eu. specialize (A t Ht Et). specialize (B u v Hu Eu). lia.
Qed.
(** A state meeting the hypotheses with a waiting sender: two messages stored, a third push waits. *)
Example C62_case :
  match c_run 2 (c_new 3) [CPush 0 7 SWait; CNotify 0 None; CPush 0 8 SWait; CNotify 0 None; CPush 1 9 SWait] with
  | Some s => c_th s 0 = TIdle /\ c_th s 1 = TPushSleep 9 /\ rb_full (c_rb s) = Some true
  | None => False
  end.
Proof. vm_compute. easy. Qed.
Print Assumptions C62_no_lost_wakeup.

(** C61, refuted: a buffer of size n does not hold n messages; with size one no message can ever be received, and a waiting
    push never returns; with size zero the first push divides by zero. *)
Theorem C61_capacity_refuted :
  (forall c, 2 <= c -> exists s, exists outs, rb_run (rb_new c) (map (fun v => RPush v SDrop) (seq 0 c)) = Some (s, outs) /\
     nth_error outs (c - 1) = Some (RPushed PDropped)) /\
  (forall h, exists s outs, rb_run (rb_new 1) h = Some (s, outs) /\ (forall x, ~ In (RGot x) outs)) /\
  (forall v, rb_push v SWait (rb_new 1) = Some (rb_new 1, PBlocked)) /\
  (forall v g, rb_push v g (rb_new 0) = None).
Proof.
  split; [|split; [|split]].
  - intros c Hc. destruct (rb_run_rep c Hc (map (fun v => RPush v SDrop) (seq 0 c)) [] (rb_new c)) as [s [E R]]; [apply rep_new; lia|].
    exists s, (q_answers c [] (map (fun v => RPush v SDrop) (seq 0 c))). split; [easy|].
    assert (Hs : seq 0 c = seq 0 (c - 1) ++ [c - 1]).
    { replace c with (S (c - 1)) at 1 by lia. rewrite seq_S. easy. }
    rewrite Hs, map_app. cbn [map].
    pose proof (q_answers_nth c (map (fun v => RPush v SDrop) (seq 0 (c - 1))) [] (RPush (c - 1) SDrop) []) as Hn.
    rewrite map_length, seq_length in Hn. rewrite Hn. rewrite app_nil_r. cbn [q_answer].
    assert (Hq : forall m, m <= c - 1 -> length (q_after c (rev (map (fun v => RPush v SDrop) (seq 0 m)))) = m).
    { induction m as [|m IH]; intros Hm; [easy|]. rewrite seq_S, map_app, rev_app_distr. cbn [map rev app q_after]. unfold q_push.
      rewrite IH by lia. destruct (Nat.ltb_spec m (c - 1)); [|lia]. rewrite app_length, IH by lia. cbn. lia. }
    rewrite Hq by lia. destruct (Nat.ltb_spec (c - 1) (c - 1)); [lia|easy].
  - assert (H : forall h s, rb_cap s = 1 -> rb_head s = 0 -> rb_tail s = 0 -> length (rb_cells s) = 1 ->
      exists s' outs, rb_run s h = Some (s', outs) /\ forall x, ~ In (RGot x) outs).
    { induction h as [|o r IH]; intros s H1 H2 H3 H4; [now exists s, []|].
      destruct s as [c h t l]. cbn in H1, H2, H3, H4. subst. destruct l as [|y [|z l]]; try discriminate. destruct o as [v g|].
      - destruct g; cbn [rb_run rb_do rb_push rb_full rb_cap rb_head rb_tail Nat.add Nat.modulo Nat.divmod Nat.sub Nat.eqb snd fst].
        + destruct (IH (mkRB 1 0 0 [y]) eq_refl eq_refl eq_refl eq_refl) as [s' [outs [E Hx]]]. change (1 mod 1) with 0. rewrite E. eexists. eexists. split; [reflexivity|].
          intros x [Hi|Hi]; [discriminate|now apply (Hx x)].
        + destruct (IH (mkRB 1 0 0 [Some v]) eq_refl eq_refl eq_refl eq_refl) as [s' [outs [E Hx]]]. cbn in E |- *. rewrite E. eexists. eexists. split; [reflexivity|].
          intros x [Hi|Hi]; [discriminate|now apply (Hx x)].
        + destruct (IH (mkRB 1 0 0 [y]) eq_refl eq_refl eq_refl eq_refl) as [s' [outs [E Hx]]]. change (1 mod 1) with 0. rewrite E. eexists. eexists. split; [reflexivity|].
          intros x [Hi|Hi]; [discriminate|now apply (Hx x)].
      - destruct (IH (mkRB 1 0 0 [y]) eq_refl eq_refl eq_refl eq_refl) as [s' [outs [E Hx]]]. cbn [rb_run rb_do rb_pop rb_empty rb_head rb_tail Nat.eqb]. rewrite E. eexists. eexists. split; [reflexivity|].
        intros x [Hi|Hi]; [discriminate|now apply (Hx x)]. }
    intros h. now apply H.
  - reflexivity.
  - reflexivity.
Qed.
(** C61, what holds: a buffer of size n, n at least two, holds n-1 messages whatever was pushed and popped before. *)
Theorem C61_capacity_partial : forall c, 2 <= c -> forall h v g,
  (length (q_after c (rev h)) < c - 1 -> q_after c (rev (h ++ [RPush v g])) = q_after c (rev h) ++ [v]) /\
  exists s outs, rb_run (rb_new c) (h ++ [RPush v g]) = Some (s, outs) /\
    (length (q_after c (rev h)) < c - 1 -> nth_error outs (length h) = Some (RPushed PStored)).
Proof.
  intros c Hc h v g. split.
  - intros Hq. rewrite rev_app_distr. cbn [rev app q_after]. unfold q_push. now destruct (Nat.ltb_spec (length (q_after c (rev h))) (c - 1)); [|lia].
  - destruct (C29_sequential c Hc (h ++ [RPush v g])) as [s [outs [E [Ha _]]]]. exists s, outs. split; [easy|]. intros Hq. rewrite (Ha h (RPush v g) [] eq_refl).
    cbn [q_answer]. now destruct (Nat.ltb_spec (length (q_after c (rev h))) (c - 1)); [|lia].
Qed.
Example C61_case : length (q_after 4 (rev [RPush 1 SWait; RPush 2 SWait])) < 4 - 1.
Proof. vm_compute. lia. Qed.
Print Assumptions C61_capacity_refuted. Print Assumptions C61_capacity_partial.
