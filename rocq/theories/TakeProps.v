(** C118: an accepted setting takes effect, changes nothing else, and holds until the next accepted one. *)
From Verif Require Import TakeSpec LockProofs PipeProofs PipeLife PipeProps LockProps StatusProofs.
From Coq Require Import Lia.
Local Open Scope nat_scope.
Local Open Scope list_scope.

Lemma fine_taken : taken fine. Proof. vm_compute. discriminate. Qed.
Lemma init_not : ~ taken thrown_init. Proof. intros []. Qed.
Lemma mut_not : ~ taken thrown_mutable. Proof. intros []. Qed.
Lemma suit_not : ~ taken (Val not_suitable). Proof. vm_compute. intros H. now apply H. Qed.
Lemma err_not : ~ taken (Val (st_err "is not in the depends")). Proof. vm_compute. intros H. now apply H. Qed.
Lemma put_find x v m y : find (fun p => fst p =? y) (put x v m) = if y =? x then Some (x, v) else find (fun p => fst p =? y) m.
Proof.
  induction m as [|[a b] m IH]; cbn.
  - destruct (Nat.eqb_spec x y), (Nat.eqb_spec y x); congruence.
  - destruct (Nat.eqb_spec a x); cbn.
    + subst a. destruct (Nat.eqb_spec x y), (Nat.eqb_spec y x); congruence.
    + rewrite IH. destruct (Nat.eqb_spec a y), (Nat.eqb_spec y x); congruence.
Qed.
Lemma call_taken e init mut grp k c : taken (snd (set_call e init mut grp k c)) -> changed e k (fst (set_call e init mut grp k c)) c.
Proof.
  destruct k as [nm lp lv vi bi ti ho ma de ep asp fu]. destruct c; cbn [set_call changed];
    repeat match goal with |- context [if ?b then _ else _] => destruct b eqn:? end; cbn [fst snd];
    try (intros H; now destruct H); try (intros H; now destruct (suit_not H)); try (intros H; now destruct (err_not H)); intros _; try reflexivity.
  - eexists. split; [reflexivity|]. intros d. rewrite in_app_iff, filter_In, Bool.andb_true_iff, !Bool.negb_true_iff, Nat.eqb_neq.
    destruct (memb d de) eqn:M; [|split; [intros [A|(A & B & _)]; auto|intros [A|[A B]]; auto]].
    apply memb_in in M. split; [intros [A|(A & B & _)]; auto|intros [A|[A B]]; auto].
  - match goal with H : memb _ _ = true |- _ => apply memb_in in H end. split; [assumption|]. eexists. split; [reflexivity|]. intros y. rewrite filter_In, Bool.negb_true_iff, Nat.eqb_neq. tauto.
  - eexists. split; [reflexivity|]. intros y. apply put_find.
  - eexists. split; [reflexivity|]. intros y. apply put_find.
Qed.
Lemma call_refused e init mut grp k c : ~ taken (snd (set_call e init mut grp k c)) -> fst (set_call e init mut grp k c) = k.
Proof.
  destruct k as [nm lp lv vi bi ti ho ma de ep asp fu]. destruct c; cbn [set_call];
    repeat match goal with |- context [if ?b then _ else _] => destruct b eqn:? end; cbn [fst snd]; try reflexivity; intros H; now destruct (H fine_taken).
Qed.
Lemma call_accepted e mut grp k c : (0 <= k_timeout k)%Z -> taken (snd (set_call e false mut grp k c)) <-> acceptable grp k c.
Proof.
  pose proof fine_taken as F. intros T. destruct k as [nm lp lv vi bi ti ho ma de ep asp fu]. destruct c; cbn [set_call acceptable k_timeout k_loop k_deps andb] in *; rewrite ?Bool.andb_false_r; cbn [fst snd]; try tauto.
  - destruct (Z.ltb_spec 0 ti), (N.eqb_spec n 1); cbn; try tauto; split; auto; try lia; intros _; left; lia.
  - destruct (Z.ltb_spec t 0), (N.ltb_spec 1 lp), (Z.eqb_spec t 0); cbn; split; auto; try lia; intros _; try lia.
  - destruct grp; cbn; split; try tauto; discriminate.
  - destruct (memb d de) eqn:M; cbn [snd]; [apply memb_in in M; tauto|]. split; [intros X; now destruct (err_not X)|]. intros X. apply memb_in in X. congruence.
Qed.

(** In whatever state and phase the pipeline is: a call on an element that is accepted sets what it names, and nothing else of that element; a call that is refused
    changes nothing; and no call changes another element. An element that is not initialised accepts every call, but for: a loop count other than one with a time limit,
    a negative time limit, a time limit with a loop count above one, a group as macro, and the removal of a dependence it has not. *)
Theorem C118_effect : forall ask mg s e c, let '(s', v) := lstep ask mg s (LSet e c) in
  (taken v -> changed e (l_conf s e) (l_conf s' e) c) /\ (~ taken v -> l_conf s' e = l_conf s e) /\
  (forall x, x <> e -> l_conf s' x = l_conf s x) /\ l_p s' = l_p s /\
  (pp_flag (l_p s) e = false -> (0 <= k_timeout (l_conf s e))%Z -> taken v <-> acceptable (is_group (c_elems (pp_cfg (l_p s))) e) (l_conf s e) c).
Proof.
  intros ask mg s e c. cbn [lstep]. set (i := pp_flag (l_p s) e). set (m := is_mut _ _ _). set (g := is_group _ _).
  pose proof (call_taken e i m g (l_conf s e) c) as A. pose proof (call_refused e i m g (l_conf s e) c) as B. pose proof (call_accepted e m g (l_conf s e) c) as C.
  destruct (set_call e i m g (l_conf s e) c) as [k v] eqn:E. cbn [fst snd l_conf l_p] in *. rewrite upd_same.
  split; [exact A|]. split; [exact B|]. split; [intros x N; now apply upd_other|]. split; [reflexivity|]. intros I T. rewrite I in E. rewrite E in C. exact (C T).
Qed.
Print Assumptions C118_effect.

(** * Histories *)
Lemma latest_gen {A} (pi : conf -> A) (f : scall -> option A) e ask mg :
  (forall i m g k c, taken (snd (set_call e i m g k c)) -> pi (fst (set_call e i m g k c)) = match f c with Some a => a | None => pi k end) ->
  forall h s s' vs, lrun ask mg s h = (s', vs) -> latest f e (combine h vs) (pi (l_conf s e)) (pi (l_conf s' e)).
Proof.
  intros G. induction h as [|o h IH]; intros s s' vs E; cbn [lrun] in E.
  - injection E as <- <-. right. split; [intros y b []|reflexivity].
  - destruct (lstep ask mg s o) as [s1 v] eqn:E1. destruct (lrun ask mg s1 h) as [s2 ws] eqn:E2. injection E as <- <-. cbn [combine].
    destruct (IH _ _ _ E2) as [(h1 & x & h2 & -> & S & N)|[N D]]; [left; exists ((o, v) :: h1), x, h2; auto|]. rewrite D. clear IH D E2.
    assert (Q : (exists a, said f e (o, v) a /\ pi (l_conf s1 e) = a) \/ (forall a, ~ said f e (o, v) a) /\ pi (l_conf s1 e) = pi (l_conf s e)).
    { destruct o as [o|x c|x r]; cbn [lstep] in E1.
      - destruct (pipe_step ask (l_p s) o). injection E1 as <- _. right. split; [|reflexivity]. intros a (c & X & _). discriminate X.
      - set (i := pp_flag (l_p s) x) in E1. set (m := is_mut _ _ _) in E1. set (g := is_group _ _) in E1.
        pose proof (G i m g (l_conf s x) c) as G1. pose proof (call_refused x i m g (l_conf s x) c) as R.
        destruct (Nat.eq_dec x e) as [->|NX].
        + destruct (set_call e i m g (l_conf s e) c) as [k w]. injection E1 as <- <-. cbn [l_conf fst snd] in *. rewrite upd_same.
          assert (TD : taken w \/ ~ taken w) by (destruct w; cbn [taken]; try tauto; lia).
          destruct TD as [T|T].
          * rewrite (G1 T). destruct (f c) as [a|] eqn:F; [left; exists a; split; [exists c; auto|reflexivity]|]. right. split; [|reflexivity]. intros a (c' & X & _ & Y). injection X as <-. congruence.
          * rewrite (R T). right. split; [|reflexivity]. intros a (c' & _ & X & _). now apply T.
        + destruct (set_call x i m g (l_conf s x) c) as [k w]. injection E1 as <- <-. cbn [l_conf]. rewrite upd_other by congruence. right. split; [|reflexivity]. intros a (c' & X & _). injection X. congruence.
      - injection E1 as <- _. right. split; [|reflexivity]. intros a (c & X & _). discriminate X. }
    destruct Q as [(a & S & P)|[S P]].
    + left. exists [], (o, v), (combine h ws). rewrite P. split; [reflexivity|]. split; [exact S|exact N].
    + right. split; [|exact P]. intros y b [<-|I]; [apply S|now apply N].
Qed.
Ltac one := let i := fresh "i" in let m := fresh "m" in let g := fresh "g" in let k0 := fresh "k0" in let c := fresh "c" in let T := fresh "T" in
  intros i m g k0 c T; apply call_taken in T; revert T; match goal with |- context [fst ?y] => generalize (fst y) end; intros k1 T; destruct k0 as [nm lp lv vi bi ti ho ma de ep asp fu];
  destruct c; cbn in T |- *; repeat match goal with H : exists _, _ |- _ => destruct H | H : _ /\ _ |- _ => destruct H end; subst; try reflexivity.
(** However long a program has been configuring, initialising, running and destroying: every setting is the one given by the last accepted call on that element, the
    initial one when there was none. *)
Theorem C118_latest : forall ask mg h s s' vs e, lrun ask mg s h = (s', vs) ->
  let k := l_conf s e in let k' := l_conf s' e in let H := combine h vs in
  latest of_name e H (k_name k) (k_name k') /\ latest of_loop e H (k_loop k) (k_loop k') /\ latest of_level e H (k_level k) (k_level k') /\
  latest of_visible e H (k_visible k) (k_visible k') /\ latest of_bind e H (k_bind k) (k_bind k') /\
  latest of_timeout e H (k_timeout k) (k_timeout k') /\ latest of_hold e H (k_hold k) (k_hold k') /\ latest of_macro e H (k_macro k) (k_macro k') /\
  (forall x, latest (of_eparam x) e H (found x (k_eparams k)) (found x (k_eparams k'))) /\
  (forall x, latest (of_fun x) e H (found x (k_funs k)) (found x (k_funs k'))) /\
  (forall d, latest (of_depend e d) e H (memb d (k_deps k)) (memb d (k_deps k'))) /\
  k_aspects k' = k_aspects k ++ aspects_of e h.
Proof.
  intros ask mg h s s' vs e E k k' H.
  do 8 (split; [refine (latest_gen _ _ e ask mg _ h s s' vs E); one|]).
  split; [|split; [|split]].
  - intros x. refine (latest_gen (fun k => found x (k_eparams k)) _ e ask mg _ h s s' vs E). one. unfold found. rewrite H1, Nat.eqb_sym. now destruct (k0 =? x).
  - intros x. refine (latest_gen (fun k => found x (k_funs k)) _ e ask mg _ h s s' vs E). one. unfold found. rewrite H1, Nat.eqb_sym. now destruct (ty =? x).
  - intros d. refine (latest_gen (fun k => memb d (k_deps k)) _ e ask mg _ h s s' vs E). one.
    + change (existsb (Nat.eqb d) de) with (memb d de); change (existsb (Nat.eqb d) x) with (memb d x). destruct (memb d ds && negb (d =? e)) eqn:Q.
      * apply memb_in, H1. right. apply Bool.andb_true_iff in Q as [A B]. apply memb_in in A. apply Bool.negb_true_iff, Nat.eqb_neq in B. auto.
      * apply Bool.eq_iff_eq_true. rewrite !memb_in, H1. split; [|auto]. intros [X|[X Y]]; [exact X|]. apply memb_in in X. apply Nat.eqb_neq in Y. rewrite X, Y in Q. discriminate Q.
    + change (existsb (Nat.eqb d) de) with (memb d de); change (existsb (Nat.eqb d) x) with (memb d x). destruct (Nat.eqb_spec d0 d) as [->|N].
      * apply Bool.not_true_iff_false. rewrite memb_in, H2. tauto.
      * apply Bool.eq_iff_eq_true. rewrite !memb_in, H2. split; [tauto|]. intros X. split; [exact X|congruence].
  - subst k k' H. revert s vs E. induction h as [|o h IH]; intros s vs E; cbn [lrun] in E; [injection E as <- _; cbn; now rewrite app_nil_r|].
    destruct (lstep ask mg s o) as [s1 v] eqn:E1. destruct (lrun ask mg s1 h) as [s2 ws] eqn:E2. injection E as <- _. rewrite (IH _ _ E2). cbn [aspects_of flat_map]. fold (aspects_of e h). rewrite app_assoc. f_equal.
    destruct o as [o|x c|x r]; cbn [lstep] in E1.
    + destruct (pipe_step ask (l_p s) o). injection E1 as <- _. cbn. now rewrite app_nil_r.
    + set (i := pp_flag (l_p s) x) in E1. set (m := is_mut _ _ _) in E1. set (g := is_group _ _) in E1.
      destruct (set_call x i m g (l_conf s x) c) as [k w] eqn:K. injection E1 as <- _. cbn [l_conf].
      destruct (Nat.eq_dec x e) as [->|N]; [rewrite upd_same|rewrite upd_other by congruence; apply Nat.eqb_neq in N; rewrite N; destruct c; now rewrite app_nil_r].
      rewrite Nat.eqb_refl. pose proof (call_taken e i m g (l_conf s e) c) as T. pose proof (call_refused e i m g (l_conf s e) c) as R. rewrite K in T, R. cbn [fst snd] in T, R.
      assert (TD : taken w \/ ~ taken w) by (destruct w; cbn [taken]; try tauto; lia). destruct TD as [Y|Y].
      * specialize (T Y). destruct (l_conf s e); destruct c; cbn in T |- *; rewrite ?app_nil_r;
          repeat match goal with H : exists _, _ |- _ => destruct H | H : _ /\ _ |- _ => destruct H end; subst; reflexivity.
      * rewrite (R Y). destruct c; try now rewrite app_nil_r. exfalso. destruct (l_conf s e). cbn in K. injection K as _ <-. apply Y, fine_taken.
    + injection E1 as <- _. cbn. now rewrite app_nil_r.
Qed.
Print Assumptions C118_latest.

(** An element never has both a time limit and a loop count above one; a time limit is never negative. *)
Theorem C118_exclusive : forall ask mg h p s vs e, lrun ask mg (mkL p (fun _ => conf0)) h = (s, vs) ->
  (0 <= k_timeout (l_conf s e))%Z /\ ((0 < k_timeout (l_conf s e))%Z -> (k_loop (l_conf s e) <= 1)%N).
Proof.
  intros ask mg h p s vs e. assert (B : (0 <= k_timeout (l_conf (mkL p (fun _ => conf0)) e))%Z /\ ((0 < k_timeout (l_conf (mkL p (fun _ => conf0)) e))%Z -> (k_loop (l_conf (mkL p (fun _ => conf0)) e) <= 1)%N)) by (cbn; lia).
  revert B. generalize (mkL p (fun _ => conf0)) as s0. revert vs. induction h as [|o h IH]; intros vs s0 B E; cbn [lrun] in E; [now injection E as <- _|].
  destruct (lstep ask mg s0 o) as [s1 v] eqn:E1. destruct (lrun ask mg s1 h) as [s2 ws] eqn:E2. injection E as <- _. apply (IH _ _) with (2 := E2). clear IH E2.
  destruct o as [o|x c|x r]; cbn [lstep] in E1.
  - destruct (pipe_step ask (l_p s0) o). injection E1 as <- _. exact B.
  - set (i := pp_flag (l_p s0) x) in E1. set (m := is_mut _ _ _) in E1. set (g := is_group _ _) in E1.
    destruct (set_call x i m g (l_conf s0 x) c) as [k w] eqn:K. injection E1 as <- _. cbn [l_conf].
    destruct (Nat.eq_dec x e) as [->|N]; [rewrite upd_same|rewrite upd_other by congruence; exact B].
    destruct (l_conf s0 e) as [nm lp lv vi bi ti ho ma de ep asp fu]. destruct c; cbn in K, B; repeat match type of K with context [if ?b then _ else _] => destruct b eqn:? end; injection K as <- _; cbn; try exact B.
    + split; [apply B|]. intros L. apply Z.ltb_lt in L. rewrite L in *. cbn in *. apply Bool.negb_false_iff, N.eqb_eq in Heqb0. lia.
    + match goal with H : (t <? 0)%Z = false |- _ => apply Z.ltb_ge in H end. split; [assumption|]. intros L.
      match goal with H : (1 <? lp)%N && negb (t =? 0)%Z = false |- _ => rename H into Q end.
      destruct (N.ltb_spec 1 lp); [|assumption]. destruct (Z.eqb_spec t 0); [lia|discriminate Q].
  - injection E1 as <- _. exact B.
Qed.
Print Assumptions C118_exclusive.

(** The pipeline of C95: settings before init, a time limit that is refused because of the loop count, init, and refused settings. *)
Example C118_nonvacuous :
  let '(s, vs) := lrun lock_ask lock_mg (mkL lock_pipe (fun _ => conf0))
    [LSet 3 (SLoop 4); LSet 3 (STimeout 5 true); LSet 3 (SLoop 1); LSet 3 (STimeout 5 true); LSet 3 (SLoop 2); LSet 1 (SEParam 7 70); LSet 1 (SEParam 8 80); LSet 1 (SEParam 7 71); LSet 1 (SAspect 2); LSet 1 (SAspect 1);
     LSet 4 (SDepend [3; 4]); LSet 4 (SRemove 9); LPipe OInit; LSet 1 (SName 6); LSet 1 (SAspect 3); LPipe ORun] in
  map (fun v => match v with Val st => (0 <=? code st)%Z | _ => false end) vs = [true; false; true; true; false; true; true; true; true; true; true; false; true; false; true; true] /\
  k_loop (l_conf s 3) = 1%N /\ k_timeout (l_conf s 3) = 5%Z /\ k_hold (l_conf s 3) = true /\ found 7 (k_eparams (l_conf s 1)) = Some 71 /\ found 8 (k_eparams (l_conf s 1)) = Some 80 /\
  k_aspects (l_conf s 1) = [2; 1; 3] /\ k_deps (l_conf s 4) = [3] /\ k_name (l_conf s 1) = 0.
Proof. vm_compute. repeat split. Qed.
