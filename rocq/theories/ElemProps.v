(** C14, C15, C17, C18, C54: processing of one element. *)
From Verif Require Import ElemModel ElemSpec ElemProofs ElemCor ElemCor2.
From Coq Require Import Lia.
Local Open Scope nat_scope.
Local Open Scope list_scope.

(** * C14 *)
(** Every processing request that ends (init, run or destroy; any user code [ask]; any state of the element) makes
    exactly the calls described by [process_calls], in that order, and returns what it says. The responses are those of
    the user code. *)
Theorem C14_calls : forall ask n loop fuel f l p l' p' o,
  fat ask true n loop fuel f (l, p) = ((l', p'), o) -> o <> NoFuel ->
  exists d, l' = l ++ d /\ faithful ask l d /\ process_calls f p n loop d p' o.
Proof.
  intros ask n loop fuel f l p l' p' o E Ho. destruct (fat_spec ask n loop fuel f l p l' p' o E Ho) as (d & [X F] & K). exists d. auto.
Qed.

(** If nothing throws or reports an error, prepareRun and all reads of the state being fine: per iteration the begin
    aspects in order, the body once more than it asked to be held, the finish aspects in order; exactly [loop] iterations. *)
Theorem C14_success : forall ask n loop fuel l p l' p' o,
  good ask -> fat ask true n loop fuel FRun (l, p) = ((l', p'), o) -> o <> NoFuel ->
  o = Val st_default /\ p' = true /\
  exists hs, List.length hs = loop /\
    map fst l' = map fst l ++ CMark FRun :: (if p then [] else [CPrepare]) ++ flat_map (one_round n) hs ++ [CCheck].
Proof.
  intros ask n loop fuel l p l' p' o G E Ho. destruct (fat_spec ask n loop fuel FRun l p l' p' o E Ho) as (d & [X F] & K).
  pose proof (good_log ask l d G F) as GL.
  assert (GR : forall x y z, d = (CMark FRun, r_none) :: x ++ y -> run_calls p n loop x p' z -> 
    z = Done st_default /\ p' = true /\ exists hs, List.length hs = loop /\ map fst x = (if p then [] else [CPrepare]) ++ flat_map (one_round n) hs ++ [CCheck]).
  { intros x y z -> R. inversion GL as [|a b _ GL']; subst. apply Forall_app in GL'. destruct GL' as [GL' _]. now apply (good_run p n loop x p' z). }
  inversion K as [x q s T|x q T|x q st m la T A|x q st m la m' T A|x q st m la T A]; subst; cbn in T.
  - destruct (GR x [] (Done s)) as (Ez & -> & hs & H1 & H2); [now rewrite app_nil_r|exact T|]. inversion Ez; subst.
    split; [easy|]. split; [easy|]. exists hs. split; [easy|]. rewrite map_app. cbn [map fst]. now rewrite H2.
  - destruct (GR x [] Out) as (Ez & _); [now rewrite app_nil_r|exact T|]. easy.
  - destruct (GR x la (Crash st m)) as (Ez & _); easy.
  - destruct (GR x la (Crash st m)) as (Ez & _); easy.
  - destruct (GR x la (Crash st m)) as (Ez & _); easy.
Qed.
(** The body is executed [loop] times plus once for every time it asked to be held: exactly [loop] times if it never asks. *)
Definition count_calls (f : cb * resp -> bool) (l : log) : nat := List.length (filter f l).
Definition is_body (e : cb * resp) : bool := match fst e with CBody => true | _ => false end.
Definition is_held (e : cb * resp) : bool := match fst e with CHold => r_flag (snd e) | _ => false end.
Lemma count_app f a b : count_calls f (a ++ b) = count_calls f a + count_calls f b.
Proof. unfold count_calls. now rewrite filter_app, app_length. Qed.
Lemma count_none f l : (forall e, In e l -> f e = false) -> count_calls f l = 0.
Proof.
  intro H. unfold count_calls. induction l as [|a l IH]; [reflexivity|]. cbn. rewrite (H a) by now left. apply IH. intros x Hx. apply H. now right.
Qed.
Lemma aspects_count k arg n l o : aspect_calls k arg n l o -> count_calls is_body l = 0 /\ count_calls is_held l = 0.
Proof.
  intros (j & _ & Hm & _). apply aspect_shape in Hm. rewrite Forall_forall in Hm.
  split; apply count_none; intros e He; destruct (Hm e He) as (i & Hi); unfold is_body, is_held; now rewrite Hi.
Qed.
Lemma body_count l : body_calls l st_default Fine -> count_calls is_body l = 1 + count_calls is_held l.
Proof.
  intro B. remember st_default as st eqn:Es. remember Fine as o eqn:Eo.
  induction B as [r H|r h H Hn|r h H Hn Hh|r h l st o H Hn Hh Hf B IH]; subst.
  - congruence.
  - exfalso. rewrite Es in Hn. cbn in Hn. unfold STATUS_OK in Hn. lia.
  - destruct Hh as [Hh|Hh]; [congruence|]. unfold count_calls, is_body, is_held. cbn. now rewrite Hh.
  - specialize (IH eq_refl eq_refl). unfold count_calls, is_body, is_held in *. cbn [filter fst snd]. rewrite Hf. cbn [List.length]. lia.
Qed.
Lemma iteration_count n l : iteration n l st_default Fine -> count_calls is_body l = 1 + count_calls is_held l.
Proof.
  intro I. remember st_default as st eqn:Es. remember Fine as o eqn:Eo.
  destruct I as [l0 o0 A Ho|lb lo s o0 A B Ho|lb lo s lf o0 A B F]; subst; try easy.
  apply aspects_count in A, F. apply body_count in B. rewrite !count_app. lia.
Qed.
Lemma iterations_count n k l st o : iterations n k l st o -> Forall good_resp l -> count_calls is_body l = k + count_calls is_held l.
Proof.
  induction 1 as [|k r H|k r l1 l2 st o H I It IH|k r l st o H I S]; intro G.
  - reflexivity.
  - exfalso. apply Forall_inv in G. destruct G as [(f & E)|(_ & _ & _ & G)]; [easy|]. specialize (G eq_refl). cbn in G. congruence.
  - inversion G as [|x y G0 G1]; subst. apply Forall_app in G1. destruct G1 as [G1 G2]. specialize (IH G2).
    apply iteration_count in I. change ((CState, r) :: l1 ++ l2) with ([(CState, r)] ++ (l1 ++ l2)). rewrite !count_app. cbn. lia.
  - inversion G as [|x y G0 G1]; subst. destruct (good_iteration _ _ _ _ I G1) as (-> & -> & _).
    destruct S as [S|S]; [cbn in S; unfold STATUS_OK in S; lia|easy].
Qed.
Theorem C14_exactly_loop_times : forall ask n loop fuel p l' p' o,
  good ask -> fat ask true n loop fuel FRun ([], p) = ((l', p'), o) -> o <> NoFuel ->
  o = Val st_default /\ count_calls is_body l' = loop + count_calls is_held l'.
Proof.
  intros ask n loop fuel p l' p' o G E Ho. destruct (C14_success ask n loop fuel [] p l' p' o G E Ho) as (-> & -> & _).
  split; [easy|]. destruct (fat_spec ask n loop fuel FRun [] p l' true _ E Ho) as (d & [X F] & K). cbn in X. subst d.
  pose proof (good_log ask [] l' G F) as GL.
  inversion K as [x q s T E1 E2 E3|x q T E1|x q st m la T A E1 E2 E3|x q st m la m' T A|x q st m la T A]; subst; cbn in T.
  - inversion GL as [|a b _ GL']; subst.
    change ((CMark FRun, r_none) :: x) with ([(CMark FRun, r_none)] ++ x). rewrite !count_app.
    change (count_calls is_body [(CMark FRun, r_none)]) with 0. change (count_calls is_held [(CMark FRun, r_none)]) with 0. cbn [plus].
    inversion T as [r Hp H E1 E2 E3|r lc d' Hp H Hn C E1 E2 E3|lp l0 st o Hp I Ho' E1 E2 E3|lp l0 st lc d' Hp I C E1 E2 E3]; subst.
    + exfalso. apply Forall_inv in GL'. destruct GL' as [(f & E0)|(_ & _ & G0 & _)]; [easy|]. specialize (G0 eq_refl). cbn in G0. lia.
    + exfalso. apply Forall_app in GL'. destruct GL' as [_ GL']. destruct (good_iterations _ _ _ _ _ I GL') as [E0 _]. easy.
    + apply Forall_app in GL'. destruct GL' as [_ GL']. apply Forall_app in GL'. destruct GL' as [GL1 GL2].
      apply check_done in C. destruct C as [_ (rc & -> & _)]. apply iterations_count in I; [|exact GL1]. rewrite !count_app.
      destruct Hp as [[_ ->]|[_ (r & -> & _)]]; cbn; lia.
  - exfalso. inversion GL as [|a b _ GL']; subst. apply Forall_app in GL'. destruct GL' as [GL' _].
    now destruct (good_run _ _ _ _ _ _ T GL') as [Ez _].
Qed.
(** ... and such a run does end. *)
Theorem C14_ends : forall ask n loop fuel f s, (forall l, r_flag (ask l CHold) = false) -> 0 < fuel ->
  snd (fat ask true n loop fuel f s) <> NoFuel.
Proof. exact no_hold_fuel. Qed.

(** A run that returns a status that is not an error had no failing call, and did [loop] iterations unless it found the
    state not NORMAL (cancelled, suspended, timed out) or prepareRun had returned a positive code. *)
Theorem C14_no_error : forall ask n loop fuel l p l' p' v,
  fat ask true n loop fuel FRun (l, p) = ((l', p'), Val v) -> (0 <= code v)%Z ->
  p' = true /\ exists d, l' = l ++ (CMark FRun, r_none) :: d /\ Forall ok_call d /\
  ((v = st_default /\ exists hs tail, List.length hs <= loop /\
      map fst d = (if p then [] else [CPrepare]) ++ flat_map (one_round n) hs ++ tail ++ [CCheck] /\
      (List.length hs = loop /\ tail = [] \/ tail = [CState] /\ exists r, In (CState, r) d /\ r_flag r = false)) \/
   (exists r r', d = [(CPrepare, r); (CCheck, r')] /\ r_st r = v /\ (0 < code v)%Z)).
Proof.
  intros ask n loop fuel l p l' p' v E Hv. destruct (fat_spec ask n loop fuel FRun l p l' p' _ E ltac:(easy)) as (d & [X F] & K).
  inversion K as [x q s T E1 E2 E3|x q T E1 E2 E3|x q st m la T A E1 E2 E3|x q st m la m' T A E1 E2 E3|x q st m la T A E1 E2 E3]; subst; cbn in T.
  - destruct (run_no_error _ _ _ _ _ _ T Hv) as (R1 & R2 & R3). split; [exact R1|]. exists x. auto.
  - exfalso. destruct (code st =? -996)%Z eqn:E9; [apply Z.eqb_eq in E9; lia|cbn in Hv; lia].
Qed.
(** The first error is returned: an error from prepareRun or a begin aspect ends the run at once (no body follows); an
    error from the body is followed by exactly the hold question, the finish aspects and checkRunResult. *)
Theorem C14_first_error : forall ask n loop fuel l p l' p' v,
  fat ask true n loop fuel FRun (l, p) = ((l', p'), Val v) -> (code v < 0)%Z ->
  exists d, l' = l ++ (CMark FRun, r_none) :: d /\
  (Exists crash_cause d \/
   exists pre c r post, d = pre ++ (c, r) :: post /\ Forall ok_call pre /\ r_exc r = None /\ r_st r = v /\
   ((c = CPrepare \/ exists i, c = CAspect ABeginRun i st_default) /\ post = [] \/
    c = CBody /\ map fst post = CHold :: map (fun i => CAspect AFinishRun i v) (seq 0 n) ++ [CCheck] /\ Forall ok_call post)).
Proof.
  intros ask n loop fuel l p l' p' v E Hv. destruct (fat_spec ask n loop fuel FRun l p l' p' _ E ltac:(easy)) as (d & [X F] & K).
  inversion K as [x q s T E1 E2 E3|x q T E1 E2 E3|x q st m la T A E1 E2 E3|x q st m la m' T A E1 E2 E3|x q st m la T A E1 E2 E3]; subst; cbn in T.
  - exists x. split; [easy|]. right. now apply (run_first_error p n loop x p' v).
  - exists (x ++ la). split; [easy|]. left. apply Exists_app. left. now apply run_verdict in T.
Qed.
(** An invisible element does nothing and reports OK. *)
Theorem C14_invisible : forall ask n loop fuel f s, fat ask false n loop fuel f s = (s, Val st_default).
Proof. reflexivity. Qed.

(** * C15 *)
Definition foreign_free (l : log) : Prop := forall e, In e l -> ~ alien e.
Definition handler_ok (l : log) : Prop := forall i arg r, In (CAspect AEnterCrashed i arg, r) l -> r_exc r = None.
(** No CGraph exception escapes: processing ends with a status. *)
Theorem C15_returns_status : forall ask n loop fuel f l p l' p' o,
  fat ask true n loop fuel f (l, p) = ((l', p'), o) -> o <> NoFuel -> foreign_free l' -> handler_ok l' ->
  exists v, o = Val v.
Proof.
  intros ask n loop fuel f l p l' p' o E Ho FF HO. destruct (fat_spec ask n loop fuel f l p l' p' o E Ho) as (d & [-> F] & K).
  assert (AL : forall la a, aspect_calls AEnterCrashed st_default n la a -> (forall e, In e la -> In e (l ++ d)) -> a = Fine).
  { intros la a (j & _ & Hm & [(_ & -> & _)|(l0 & e & -> & _ & He & Hne)]) Hin; [easy|].
    apply aspect_shape in Hm. rewrite Forall_forall in Hm. destruct (Hm e) as (i & Hi); [rewrite in_app_iff; right; now left|].
    destruct e as [c r]. cbn in *. subst c. specialize (HO i st_default r). unfold call_fate in He. rewrite HO in He; [easy|].
    apply Hin. rewrite in_app_iff. right. now left. }
  inversion K as [x q s T E1 E2 E3|x q T E1 E2 E3|x q st m la T A E1 E2 E3|x q st m la m' T A E1 E2 E3|x q st m la T A E1 E2 E3]; subst.
  - now exists s.
  - exfalso. apply try_verdict in T. destruct T as [T _]. cbn in T. apply Exists_exists in T. destruct T as (e & He & Ha).
    apply (FF e); [|exact Ha]. rewrite in_app_iff. right. now right.
  - eexists. reflexivity.
  - apply AL in A; [easy|]. intros e He. rewrite in_app_iff. right. right. rewrite in_app_iff. now right.
  - apply AL in A; [easy|]. intros e He. rewrite in_app_iff. right. right. rewrite in_app_iff. now right.
Qed.
(** If something crashed, the status has the crash code and each enter-crashed aspect was called once, in order, after
    everything else; otherwise none was called. *)
Theorem C15_crash_status : forall ask n loop fuel f l p l' p' v,
  fat ask true n loop fuel f (l, p) = ((l', p'), Val v) ->
  exists d, l' = l ++ d /\
  (Exists crash_cause d -> code v = (-996)%Z /\ crashed_aspects d = seq 0 n /\
     exists d0 la, d = d0 ++ la /\ crashed_aspects d0 = [] /\ List.length la = n) /\
  (~ Exists crash_cause d -> crashed_aspects d = []).
Proof.
  intros ask n loop fuel f l p l' p' v E. destruct (fat_spec ask n loop fuel f l p l' p' _ E ltac:(easy)) as (d & [-> F] & K).
  exists d. split; [easy|].
  inversion K as [x q s T E1 E2 E3|x q T E1 E2 E3|x q st m la T A E1 E2 E3|x q st m la m' T A E1 E2 E3|x q st m la T A E1 E2 E3]; subst.
  - apply try_verdict in T. destruct T as [T1 T2]. cbn in T1. split.
    + intro Ex. exfalso. apply Exists_exists in Ex. destruct Ex as (e & He & Hc). destruct He as [<-|He]; [easy|].
      rewrite Forall_forall in T1. now apply (proj1 (T1 e He)).
    + intros _. exact T2.
  - apply try_verdict in T. destruct T as [T1 T2]. cbn in T1. split.
    + intros _. split; [|].
      * destruct (code st =? -996)%Z eqn:E9; [cbn; now apply Z.eqb_eq|reflexivity].
      * destruct A as (j & _ & Hm & [(-> & _ & _)|(l0 & e & _ & _ & He & Hne)]); [|easy].
        assert (CA : crashed_aspects la = seq 0 n).
        { clear -Hm. revert Hm. generalize 0. revert n. induction la as [|[c r] la IH]; intros n z Hm.
          - destruct n; [reflexivity|discriminate].
          - destruct n as [|n]; [discriminate|]. cbn in Hm. inversion Hm; subst. unfold crashed_aspects in *. cbn. now rewrite (IH n (S z)). }
        split.
        -- change ((CMark f, r_none) :: x ++ la) with ([(CMark f, r_none)] ++ (x ++ la)). rewrite !crashed_aspects_app, T2, CA. reflexivity.
        -- exists ((CMark f, r_none) :: x), la. split; [easy|]. split; [exact T2|].
           apply (f_equal (@List.length cb)) in Hm. now rewrite !map_length, seq_length in Hm.
    + intro N. exfalso. apply N. constructor 2. apply Exists_app. now left.
Qed.

(** * C54: exceptions of other types *)
Definition ask_foreign : oracle := fun _ c => match c with CBody => mkR (Some Foreign) st_default false | CState => mkR None st_default true | _ => r_none end.
(** Refuted: a body throwing e.g. std::runtime_error: the exception leaves the element, and no enter-crashed aspect is called. *)
Theorem C54_any_exception_refuted : exists ask n loop fuel l' p',
  handler_ok l' /\ fat ask true n loop fuel FRun ([], false) = ((l', p'), Escaped) /\ crashed_aspects l' = [].
Proof.
  exists ask_foreign, 1, 1, 1, (fst (fst (fat ask_foreign true 1 1 1 FRun ([], false)))), true.
  split; [|split; vm_compute; reflexivity].
  intros i arg r H. vm_compute in H. repeat (destruct H as [H|H]; [inversion H|]). easy.
Qed.
(** What holds: exactly the foreign exceptions escape, and at once. *)
Theorem C54_any_exception_partial : forall ask n loop fuel f l p l' p' o,
  fat ask true n loop fuel f (l, p) = ((l', p'), o) -> o <> NoFuel -> handler_ok l' ->
  (exists v, o = Val v) \/ (o = Escaped /\ exists e, In e l' /\ alien e).
Proof.
  intros ask n loop fuel f l p l' p' o E Ho HO. destruct (fat_spec ask n loop fuel f l p l' p' o E Ho) as (d & [-> F] & K).
  assert (AL : forall la a, aspect_calls AEnterCrashed st_default n la a -> (forall e, In e la -> In e (l ++ d)) -> a = Fine).
  { intros la a (j & _ & Hm & [(_ & -> & _)|(l0 & e & -> & _ & He & Hne)]) Hin; [easy|].
    apply aspect_shape in Hm. rewrite Forall_forall in Hm. destruct (Hm e) as (i & Hi); [rewrite in_app_iff; right; now left|].
    destruct e as [c r]. cbn in *. subst c. specialize (HO i st_default r). unfold call_fate in He. rewrite HO in He; [easy|].
    apply Hin. rewrite in_app_iff. right. now left. }
  inversion K as [x q s T E1 E2 E3|x q T E1 E2 E3|x q st m la T A E1 E2 E3|x q st m la m' T A E1 E2 E3|x q st m la T A E1 E2 E3]; subst.
  - left. now exists s.
  - right. split; [easy|]. apply try_verdict in T. destruct T as [T _]. cbn in T. apply Exists_exists in T. destruct T as (e & He & Ha).
    exists e. split; [|exact Ha]. rewrite in_app_iff. right. now right.
  - left. eexists. reflexivity.
  - apply AL in A; [easy|]. intros e He. rewrite in_app_iff. right. right. rewrite in_app_iff. now right.
  - apply AL in A; [easy|]. intros e He. rewrite in_app_iff. right. right. rewrite in_app_iff. now right.
Qed.

(** * C17 *)
(** [l]: the log of any history of init/run/destroy requests (with any visibility, loop count, aspects at each of them)
    on a fresh element, whatever the user code does. *)
Theorem C17_body_after_prepare : forall ask fuel h l p os, fat_history ask fuel h ([], false) = ((l, p), os) ->
  forall a r b, l = a ++ (CBody, r) :: b ->
  exists a1 r' a2, a = a1 ++ (CPrepare, r') :: a2 /\ r_exc r' = None /\ (0 <= code (r_st r'))%Z /\
    forall e, In e a2 -> fst e <> CMark FInit.
Proof.
  intros ask fuel h l p os E a r b El. pose proof (J_history ask fuel h ([], false)) as H. cbn zeta in H. rewrite E in H. cbn [fst snd] in H.
  assert (J0 : J [] false).
  { split; [split; [easy|]; intros (x & e & y & E0 & _); destruct x; discriminate|].
    split; intros x r0 y E0; destruct x; discriminate. }
  destruct (H J0) as (_ & H2 & _). destruct (H2 a r b El) as (a1 & [c r'] & a2 & -> & [Hc Hf] & Hn). cbn in Hc, Hf. subst c.
  pose proof (fate_cases true r') as FC. rewrite Hf in FC. destruct FC as [F1 F2]. exists a1, r', a2. auto.
Qed.
Theorem C17_prepare_once : forall ask fuel h l p os, fat_history ask fuel h ([], false) = ((l, p), os) ->
  forall a r b r' c, l = a ++ (CPrepare, r) :: b ++ (CPrepare, r') :: c ->
  r_exc r = None -> (0 <= code (r_st r))%Z -> exists e, In e b /\ fst e = CMark FInit.
Proof.
  intros ask fuel h l p os E a r b r' c El Hr Hc. pose proof (J_history ask fuel h ([], false)) as H. cbn zeta in H. rewrite E in H. cbn [fst snd] in H.
  assert (J0 : J [] false).
  { split; [split; [easy|]; intros (x & e & y & E0 & _); destruct x; discriminate|].
    split; intros x r0 y E0; destruct x; discriminate. }
  destruct (H J0) as (_ & _ & H3). specialize (H3 (a ++ (CPrepare, r) :: b) r' c).
  assert (El2 : l = (a ++ (CPrepare, r) :: b) ++ (CPrepare, r') :: c) by (rewrite <- app_assoc; exact El).
  specialize (H3 El2).
  destruct (Exists_dec (fun e => fst e = CMark FInit) b) as [D|D].
  - intros [x y]. destruct x as [f| | | | | | | |]; try (right; easy). destruct f; [now left|right; easy|right; easy].
  - apply Exists_exists in D. destruct D as (e & D1 & D2). exists e. auto.
  - exfalso. apply H3. exists a, (CPrepare, r), b. split; [easy|]. split.
    + split; [easy|]. cbn. apply call_fate_true_fine; [|exact Hc]. unfold call_fate. now rewrite Hr.
    + intros e He Hf. apply D. apply Exists_exists. now exists e.
Qed.

(** * C18 *)
Theorem C18_exclusive : forall m l, let e := es_run (es_fresh m) l in
  (0 <= es_timeout e)%Z /\ ~ ((0 < es_timeout e)%Z /\ (1 < es_loop e)%N) /\ check_suitable e = true.
Proof.
  intros m l. cbn zeta.
  assert (INV : forall l e, (0 <= es_timeout e)%Z /\ ~ ((0 < es_timeout e)%Z /\ (1 < es_loop e)%N) ->
    let e' := es_run e l in (0 <= es_timeout e')%Z /\ ~ ((0 < es_timeout e')%Z /\ (1 < es_loop e')%N)).
  { clear. induction l as [|o l IH]; intros e H; [exact H|]. cbn zeta. unfold es_run. cbn [fold_left]. apply IH. clear IH.
    destruct o as [n|t|b]; cbn [es_step].
    - unfold set_loop. destruct (es_init e && negb (es_mut e)); [exact H|].
      destruct (Z.ltb_spec 0 (es_timeout e)); cbn [andb].
      + destruct (N.eqb_spec n 1); cbn [negb]; [|exact H]. cbn. lia.
      + cbn. lia.
    - unfold set_timeout. destruct (es_init e); [exact H|]. destruct (Z.ltb_spec t 0); [exact H|].
      destruct (N.ltb_spec 1 (es_loop e)); cbn [andb].
      + destruct (Z.eqb_spec t 0); cbn [negb]; [|exact H]. cbn. lia.
      + cbn. lia.
    - exact H. }
  pose proof (INV l (es_fresh m)) as [H1 H2]; [cbn; lia|]. split; [exact H1|]. split; [exact H2|].
  unfold check_suitable. destruct (N.ltb_spec 1 (es_loop (es_run (es_fresh m) l))); [|reflexivity].
  destruct (Z.eqb_spec (es_timeout (es_run (es_fresh m) l)) 0); [reflexivity|]. lia.
Qed.
(** An element runs once and without a time limit until a setter says otherwise, whatever else is called. *)
Theorem C18_defaults : forall m l, let e := es_run (es_fresh m) l in
  ((forall n, ~ In (ESLoop n) l) -> es_loop e = 1%N) /\ ((forall t, ~ In (ESTimeout t) l) -> es_timeout e = 0%Z).
Proof.
  intros m l. cbn zeta. assert (G : forall l e, ((forall n, ~ In (ESLoop n) l) -> es_loop (es_run e l) = es_loop e) /\ ((forall t, ~ In (ESTimeout t) l) -> es_timeout (es_run e l) = es_timeout e)).
  { clear. induction l as [|o l IH]; intros e; [now split|]. unfold es_run in *. cbn [fold_left]. destruct (IH (es_step e o)) as [A B]. split; intros N.
    - rewrite A by (intros n H; apply (N n); now right). destruct o as [n|t|b]; [destruct (N n); now left| |reflexivity]. cbn [es_step]. unfold set_timeout. now destruct (es_init e), (t <? 0)%Z, ((1 <? es_loop e)%N && negb (t =? 0)%Z).
    - rewrite B by (intros n H; apply (N n); now right). destruct o as [n|t|b]; [|destruct (N t); now left|reflexivity]. cbn [es_step]. unfold set_loop. now destruct (es_init e && negb (es_mut e)), ((0 <? es_timeout e)%Z && negb (n =? 1)%N). }
  destruct (G l (es_fresh m)) as [A B]. now split.
Qed.
Print Assumptions C18_defaults.
(** A setter call either is rejected and changes nothing, or changes its own field only, to the requested value; on an
    initialized element (not inside a mutable group) it is rejected. *)
Theorem C18_setters : forall e n t,
  (es_step e (ESLoop n) = e \/ es_step e (ESLoop n) = mkES n (es_timeout e) (es_init e) (es_mut e)) /\
  (es_step e (ESTimeout t) = e \/ es_step e (ESTimeout t) = mkES (es_loop e) t (es_init e) (es_mut e)) /\
  (es_init e = true -> es_mut e = false -> set_loop e n = None) /\
  (es_init e = true -> set_timeout e t = None).
Proof.
  intros e n t. cbn [es_step]. unfold set_loop, set_timeout. split; [|split; [|split]].
  - destruct (es_init e && negb (es_mut e)); [now left|]. destruct ((0 <? es_timeout e)%Z && negb (n =? 1)%N); [now left|now right].
  - destruct (es_init e); [now left|]. destruct (t <? 0)%Z; [now left|]. destruct ((1 <? es_loop e)%N && negb (t =? 0)%Z); [now left|now right].
  - intros -> ->. reflexivity.
  - intros ->. reflexivity.
Qed.
(** Before initialization, a value is accepted exactly when it keeps the exclusion. *)
Theorem C18_accepted : forall e n t, es_init e = false -> (0 <= es_timeout e)%Z ->
  (set_loop e n <> None <-> (es_timeout e = 0%Z \/ n = 1%N)) /\
  (set_timeout e t <> None <-> ((0 <= t)%Z /\ (t = 0%Z \/ (es_loop e <= 1)%N))).
Proof.
  intros e n t Hi Ht. unfold set_loop, set_timeout. rewrite Hi. cbn [andb]. split.
  - destruct (Z.ltb_spec 0 (es_timeout e)) as [H|H]; cbn [andb]; [destruct (N.eqb_spec n 1) as [H1|H1]; cbn [negb]|].
    + split; intros _; [now right|easy].
    + split; [easy|]. intros [H2|H2]; [lia|easy].
    + split; intros _; [left; lia|easy].
  - destruct (Z.ltb_spec t 0) as [H|H]; [split; [easy|lia]|].
    destruct (N.ltb_spec 1 (es_loop e)) as [H1|H1]; cbn [andb]; [destruct (Z.eqb_spec t 0) as [H2|H2]; cbn [negb]|].
    + split; intros _; [lia|easy].
    + split; [easy|lia].
    + split; intros _; [lia|easy].
Qed.

(** * Concrete cases *)
(** Two aspects, loop 3, the body held once in its first iteration. *)
Definition ask_ok : oracle := fun l c =>
  match c with
  | CState => mkR None st_default true
  | CHold => mkR None st_default (Nat.eqb (List.length l) 6)
  | _ => r_none
  end.
Example ask_ok_good : good ask_ok.
Proof. intros l c. destruct c; cbn; repeat split; try easy; lia. Qed.
Example ask_ok_run : exists l', fat ask_ok true 2 3 5 FRun ([], false) = ((l', true), Val st_default) /\
  count_calls is_body l' = 4 /\ count_calls is_held l' = 1.
Proof. eexists. vm_compute. repeat split. Qed.
(** The second body call fails; its error is returned after the finish aspects. *)
Definition ask_err : oracle := fun l c =>
  match c with
  | CState => mkR None st_default true
  | CBody => if Nat.ltb 5 (List.length l) then mkR None (mkStatus (-7) "late") false else r_none
  | _ => r_none
  end.
Example ask_err_run : exists l' d, fat ask_err true 1 5 2 FRun ([], false) = ((l', true), Val (mkStatus (-7) "late")) /\
  l' = d ++ [(CBody, mkR None (mkStatus (-7) "late") false); (CHold, r_none); (CAspect AFinishRun 0 (mkStatus (-7) "late"), r_none); (CCheck, r_none)] /\
  count_calls is_body l' = 2.
Proof. eexists. exists (firstn 9 (fst (fst (fat ask_err true 1 5 2 FRun ([], false))))). vm_compute. repeat split. Qed.
(** An exception in the body: crash status, aspects 0 and 1 informed. *)
Definition ask_exc : oracle := fun _ c =>
  match c with CState => mkR None st_default true | CBody => mkR (Some (CExc "boom")) st_default false | _ => r_none end.
Example ask_exc_run : exists l', fat ask_exc true 2 3 2 FRun ([], false) = ((l', true), Val (mkStatus (-996) "boom")) /\
  Exists crash_cause l' /\ crashed_aspects l' = [0; 1] /\ foreign_free l' /\ handler_ok l'.
Proof.
  exists (fst (fst (fat ask_exc true 2 3 2 FRun ([], false)))). split; [vm_compute; reflexivity|].
  set (L := fst (fst (fat ask_exc true 2 3 2 FRun ([], false)))). vm_compute in L. subst L. split; [|split; [reflexivity|split]].
  - do 5 apply Exists_cons_tl. apply Exists_cons_hd. cbn. left. now exists "boom"%string.
  - intros e H. repeat (destruct H as [<-|H]; [cbn; easy|]). easy.
  - intros i arg r H. repeat (destruct H as [H|H]; [inversion H; reflexivity|]). easy.
Qed.
(** init, two runs, init, run: prepareRun is called twice in all. *)
Example history_ok : exists l os, fat_history ask_ok 5 [mkF true 0 1 FInit; mkF true 0 1 FRun; mkF true 0 2 FRun; mkF false 0 1 FRun; mkF true 0 1 FInit; mkF true 0 1 FRun] ([], false)
  = ((l, true), os) /\ count_calls (fun e => match fst e with CPrepare => true | _ => false end) l = 2 /\ 3 < count_calls is_body l.
Proof. eexists _, _. vm_compute. repeat split. lia. Qed.
Example setters_ok : es_run (es_fresh false) [ESTimeout 5; ESLoop 3; ESTimeout 0; ESLoop 3; ESTimeout 7; ESInit true; ESLoop 9] = mkES 3 0 true false.
Proof. reflexivity. Qed.

Print Assumptions C14_calls.
Print Assumptions C14_success.
Print Assumptions C14_exactly_loop_times.
Print Assumptions C14_ends.
Print Assumptions C14_no_error.
Print Assumptions C14_first_error.
Print Assumptions C14_invisible.
Print Assumptions C15_returns_status.
Print Assumptions C15_crash_status.
Print Assumptions C54_any_exception_refuted.
Print Assumptions C54_any_exception_partial.
Print Assumptions C17_body_after_prepare.
Print Assumptions C17_prepare_once.
Print Assumptions C18_exclusive.
Print Assumptions C18_setters.
Print Assumptions C18_accepted.
(** * C17, the answers of a history *)
(** Every call of a history gets an answer of its own, in order, and the answer of each is that of the call on the element as the calls before it left it. *)
Theorem C17_answers : forall ask fuel h c s s1 os, fat_history ask fuel h s = (s1, os) -> (forall o, In o os -> o <> NoFuel) ->
  List.length os = List.length h /\
  fat_history ask fuel (h ++ [c]) s = let '(s2, o) := fat ask (f_vis c) (f_aspects c) (f_loop c) fuel (f_fn c) s1 in (s2, os ++ [o]).
Proof.
  intros ask fuel h c. induction h as [|d h IH]; intros s s1 os E N; cbn [fat_history app] in *.
  - injection E as <- <-. split; [reflexivity|]. destruct (fat ask _ _ _ fuel _ s) as [s2 []]; reflexivity.
  - destruct (fat ask (f_vis d) (f_aspects d) (f_loop d) fuel (f_fn d) s) as [s0 o] eqn:F.
    destruct o; [| | |injection E as <- <-; exfalso; apply (N NoFuel); [now left|easy]];
      (destruct (fat_history ask fuel h s0) as [sx ox] eqn:G; injection E as <- <-; destruct (IH s0 sx ox G) as [L X]; [intros q Hq; apply N; now right|];
       split; [cbn; now rewrite L|]; rewrite X; destruct (fat ask _ _ _ fuel _ sx) as [sy oy]; reflexivity).
Qed.
Print Assumptions C17_answers.
