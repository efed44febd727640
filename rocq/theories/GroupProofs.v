(** Sequential groups and the parallel multi-condition. *)
From Verif Require Import GroupModel ElemProofs.
From Coq Require Import Lia.
Local Open Scope nat_scope.
Local Open Scope list_scope.

(** * Sequential groups *)
Definition gfaithful (ask : gask) (l0 l : glog) : Prop := forall a c r b, l = a ++ (c, r) :: b -> r = ask (l0 ++ a) c.
(** The child returned a status that is no error. *)
Definition child_ok (r : gresp) : Prop := exists v, g_out r = Val v /\ (0 <= code v)%Z.
(** What a sequential group does when a child fails with [r]. *)
Definition fail_out (r : gresp) (o : out status) : Prop :=
  match g_out r with
  | Val v => (code v < 0)%Z /\ o = (if (code v =? -996)%Z then Thrown (" | " ++ info v)%string else Val v)
  | x => o = x
  end.

Lemma gfaithful_nil ask l0 : gfaithful ask l0 [].
Proof. intros a c r b E. destruct a; discriminate. Qed.
Lemma gfaithful_cons ask l0 c d : gfaithful ask (l0 ++ [(c, ask l0 c)]) d -> gfaithful ask l0 ((c, ask l0 c) :: d).
Proof.
  intros F a c0 r b E. destruct a as [|x a].
  - inversion E; subst. now rewrite app_nil_r.
  - inversion E; subst. specialize (F a c0 r b eq_refl). now rewrite <- app_assoc in F.
Qed.

Lemma last_dflt {A} (a d d' : A) l : last (a :: l) d = last (a :: l) d'.
Proof. revert a. induction l as [|b l IH]; intro a; [reflexivity|]. exact (IH b). Qed.
Lemma last_cons {A} (a d : A) l : last (a :: l) d = last l a.
Proof. destruct l as [|b l]; [reflexivity|]. exact (last_dflt b d a l). Qed.
Lemma cluster_loop_spec ask children : forall st l l' o, (0 <= code st)%Z -> cluster_loop ask children st l = (l', o) ->
  exists d, l' = l ++ d /\ gfaithful ask l d /\ map fst d = map GRun (firstn (List.length d) children) /\
    ((List.length d = List.length children /\ Forall (fun e => child_ok (snd e)) d /\
        exists v, o = Val v /\ (0 <= code v)%Z /\ code v = last (map (fun e => match g_out (snd e) with Val w => code w | _ => 0%Z end) d) (code st)) \/
     (exists d0 e, d = d0 ++ [e] /\ Forall (fun e => child_ok (snd e)) d0 /\ fail_out (snd e) o)).
Proof.
  induction children as [|c cs IH]; intros st l l' o Hst E.
  - cbn in E. inversion E; subst. exists []. rewrite app_nil_r. split; [easy|]. split; [apply gfaithful_nil|]. split; [easy|].
    left. split; [easy|]. split; [easy|]. exists st. cbn. auto.
  - cbn [cluster_loop] in E. set (r := ask l (GRun c)) in *.
    assert (STOP : forall o', (l ++ [(GRun c, r)], o') = (l', o) -> fail_out r o' ->
      exists d, l' = l ++ d /\ gfaithful ask l d /\ map fst d = map GRun (firstn (List.length d) (c :: cs)) /\
      ((List.length d = List.length (c :: cs) /\ Forall (fun e => child_ok (snd e)) d /\
        exists v, o = Val v /\ (0 <= code v)%Z /\ code v = last (map (fun e => match g_out (snd e) with Val w => code w | _ => 0%Z end) d) (code st)) \/
       (exists d0 e, d = d0 ++ [e] /\ Forall (fun e => child_ok (snd e)) d0 /\ fail_out (snd e) o))).
    { intros o' E1 Fo. inversion E1; subst. exists [(GRun c, r)]. split; [easy|]. split; [apply gfaithful_cons; apply gfaithful_nil|].
      split; [easy|]. right. exists [], (GRun c, r). auto. }
    destruct (g_out r) as [v|m| |] eqn:Er.
    + destruct (Z_lt_ge_dec (code v) 0) as [Hv|Hv].
      * rewrite assign_err in E by lia. rewrite check_status_err in E by exact Hv.
        destruct (code v =? -996)%Z eqn:E9.
        -- apply (STOP (Thrown (what_of (info v)))); [exact E|]. unfold fail_out. rewrite Er, E9. auto.
        -- apply (STOP (Val v)); [exact E|]. unfold fail_out. rewrite Er, E9. auto.
      * rewrite check_status_ok in E by (rewrite assign_code; lia).
        apply IH in E; [|rewrite assign_code; lia]. destruct E as (d & -> & F & M & H).
        exists ((GRun c, r) :: d). split; [now rewrite <- app_assoc|]. split; [now apply gfaithful_cons|].
        split; [cbn [map fst List.length firstn]; now rewrite M|].
        assert (OK : child_ok r) by (exists v; split; [exact Er|lia]).
        destruct H as [(H1 & H2 & w & H3 & H4 & H5)|(d0 & e & -> & H1 & H2)].
        -- left. split; [cbn; now rewrite H1|]. split; [now constructor|]. exists w. split; [easy|]. split; [easy|].
           rewrite H5, assign_code. cbn [map]. cbn [snd]. rewrite Er. now rewrite last_cons.
        -- right. exists ((GRun c, r) :: d0), e. split; [easy|]. split; [now constructor|easy].
    + apply (STOP (Thrown m)); [exact E|]. unfold fail_out. now rewrite Er.
    + apply (STOP Escaped); [exact E|]. unfold fail_out. now rewrite Er.
    + apply (STOP NoFuel); [exact E|]. unfold fail_out. now rewrite Er.
Qed.

(** The calls of a serial multi-condition. *)
Inductive multi_calls : list nat -> glog -> option gresp -> Prop :=
| mc_end : multi_calls [] [] None
| mc_skip c cs m d x : g_flag m = false -> multi_calls cs d x -> multi_calls (c :: cs) ((GMatch c, m) :: d) x
| mc_run c cs m r d x : g_flag m = true -> child_ok r -> multi_calls cs d x ->
    multi_calls (c :: cs) ((GMatch c, m) :: (GRun c, r) :: d) x
| mc_fail c cs m r : g_flag m = true -> ~ child_ok r -> multi_calls (c :: cs) [(GMatch c, m); (GRun c, r)] (Some r).
Lemma serial_multi_spec ask children : forall st l l' o, (0 <= code st)%Z -> serial_multi_loop ask children st l = (l', o) ->
  exists d x, l' = l ++ d /\ gfaithful ask l d /\ multi_calls children d x /\
    match x with None => exists v, o = Val v /\ (0 <= code v)%Z | Some r => fail_out r o end.
Proof.
  induction children as [|c cs IH]; intros st l l' o Hst E.
  - cbn in E. inversion E; subst. exists [], None. rewrite app_nil_r. split; [easy|]. split; [apply gfaithful_nil|]. split; [constructor|]. now exists st.
  - cbn [serial_multi_loop] in E. set (m := ask l (GMatch c)) in *. destruct (g_flag m) eqn:Em.
    + set (l0 := l ++ [(GMatch c, m)]) in *. set (r := ask l0 (GRun c)) in *.
      assert (STOP : forall o', (l0 ++ [(GRun c, r)], o') = (l', o) -> ~ child_ok r -> fail_out r o' ->
        exists d x, l' = l ++ d /\ gfaithful ask l d /\ multi_calls (c :: cs) d x /\
        match x with None => exists v, o = Val v /\ (0 <= code v)%Z | Some r => fail_out r o end).
      { intros o' E1 Nk Fo. inversion E1; subst l' o'. exists [(GMatch c, m); (GRun c, r)], (Some r). unfold l0. rewrite <- app_assoc. split; [easy|].
        split; [apply gfaithful_cons; apply gfaithful_cons; apply gfaithful_nil|]. split; [now apply mc_fail|easy]. }
      destruct (g_out r) as [v|w| |] eqn:Er.
      * destruct (Z_lt_ge_dec (code v) 0) as [Hv|Hv].
        -- rewrite assign_err in E by lia. rewrite check_status_err in E by exact Hv.
           assert (Nk : ~ child_ok r) by (intros (w & H1 & H2); rewrite Er in H1; inversion H1; subst; lia).
           destruct (code v =? -996)%Z eqn:E9.
           ++ apply (STOP (Thrown (what_of (info v)))); [exact E|exact Nk|]. unfold fail_out. rewrite Er, E9. auto.
           ++ apply (STOP (Val v)); [exact E|exact Nk|]. unfold fail_out. rewrite Er, E9. auto.
        -- rewrite check_status_ok in E by (rewrite assign_code; lia).
           apply IH in E; [|rewrite assign_code; lia]. destruct E as (d & x & -> & F & M & H).
           exists ((GMatch c, m) :: (GRun c, r) :: d), x. split; [unfold l0; now rewrite <- !app_assoc|].
           split; [apply gfaithful_cons; now apply gfaithful_cons|]. split; [|exact H]. apply mc_run; auto. exists v. split; [exact Er|lia].
      * apply (STOP (Thrown w)); [exact E| |]; [intros (z & H & _); congruence|]. unfold fail_out. now rewrite Er.
      * apply (STOP Escaped); [exact E| |]; [intros (z & H & _); congruence|]. unfold fail_out. now rewrite Er.
      * apply (STOP NoFuel); [exact E| |]; [intros (z & H & _); congruence|]. unfold fail_out. now rewrite Er.
    + apply IH in E; [|exact Hst]. destruct E as (d & x & -> & F & M & H).
      exists ((GMatch c, m) :: d), x. split; [now rewrite <- app_assoc|]. split; [now apply gfaithful_cons|]. split; [|exact H]. now constructor.
Qed.

(** * Parallel multi-condition *)
Lemma set_nth_split {A} (l : list A) i x y : nth_error l i = Some x -> exists a b, l = a ++ x :: b /\ List.length a = i /\ set_nth l i y = a ++ y :: b.
Proof.
  revert i. induction l as [|z l IH]; intros [|i] H; try discriminate.
  - inversion H; subst. now exists [], l.
  - cbn in H. destruct (IH i H) as (a & b & -> & H1 & H2). exists (z :: a), b. cbn. rewrite H2, H1. auto.
Qed.
Definition matches (evs : list pev) : list (nat * bool) := flat_map (fun e => match e with PEMatch c m => [(c, m)] | _ => [] end) evs.
Definition matched (evs : list pev) : list nat := map fst (filter snd (matches evs)).
Definition starts (evs : list pev) : list nat := flat_map (fun e => match e with PEStart c => [c] | _ => [] end) evs.
Definition ends (evs : list pev) : list (nat * out status) := flat_map (fun e => match e with PEEnd c o => [(c, o)] | _ => [] end) evs.
Definition returns (evs : list pev) : list (out status) := flat_map (fun e => match e with PEReturn o => [o] | _ => [] end) evs.
Lemma matches_app a b : matches (a ++ b) = matches a ++ matches b. Proof. apply flat_map_app. Qed.
Lemma matched_app a b : matched (a ++ b) = matched a ++ matched b.
Proof. unfold matched. now rewrite matches_app, filter_app, map_app. Qed.
Lemma starts_app a b : starts (a ++ b) = starts a ++ starts b. Proof. apply flat_map_app. Qed.
Lemma ends_app a b : ends (a ++ b) = ends a ++ ends b. Proof. apply flat_map_app. Qed.
Lemma returns_app a b : returns (a ++ b) = returns a ++ returns b. Proof. apply flat_map_app. Qed.

Definition t_started (t : nat * ptask) : list nat := match snd t with PQueued => [] | _ => [fst t] end.
Definition t_ended (t : nat * ptask) : list (nat * out status) := match snd t with PEnded o => [(fst t, o)] | _ => [] end.
(** The statuses of the first tasks, all ended normally. *)
Definition joined (ts : list (nat * ptask)) (vs : list status) : Prop := map snd ts = map (fun v => PEnded (Val v)) vs.
Definition PInv (children : list nat) (s : pstate) : Prop :=
  map fst (p_tasks s) = matched (p_evs s) /\
  Permutation (starts (p_evs s)) (flat_map t_started (p_tasks s)) /\
  Permutation (ends (p_evs s)) (flat_map t_ended (p_tasks s)) /\
  match p_main s with
  | PCommit todo => map fst (matches (p_evs s)) ++ todo = children /\ returns (p_evs s) = []
  | PJoin i st => map fst (matches (p_evs s)) = children /\ returns (p_evs s) = [] /\
      exists ts rest vs, p_tasks s = ts ++ rest /\ List.length ts = i /\ joined ts vs /\ st = st_sum st_default vs
  | PRet (Val st) => map fst (matches (p_evs s)) = children /\ (exists pre, p_evs s = pre ++ [PEReturn (Val st)] /\ returns pre = []) /\
      exists vs, joined (p_tasks s) vs /\ st = st_sum st_default vs
  | PRet o => map fst (matches (p_evs s)) = children /\ returns (p_evs s) = [o] /\ exists c, In (c, PEnded o) (p_tasks s)
  end.
Lemma PInv_init children : PInv children (par_init children).
Proof. repeat split; constructor. Qed.

Lemma joined_app ts vs v c : joined ts vs -> joined (ts ++ [(c, PEnded (Val v))]) (vs ++ [v]).
Proof. unfold joined. intro H. now rewrite !map_app, H. Qed.
Lemma st_sum_snoc l v : st_sum st_default (l ++ [v]) = st_plus (st_sum st_default l) v.
Proof. unfold st_sum. now rewrite fold_left_app. Qed.

Lemma PInv_step children s lb s' : PInv children s -> par_step s lb = Some s' -> PInv children s'.
Proof.
  intros (I1 & I2 & I3 & I4) E. destruct s as [m ts evs]. cbn [p_main p_tasks p_evs] in *.
  destruct lb as [mt|i|i o]; cbn [par_step p_main p_tasks p_evs] in E.
  - destruct m as [[|c cs]|i st|o]; [| | |discriminate].
    + inversion E; subst s'. unfold PInv. cbn [p_main p_tasks p_evs]. destruct I4 as [I4 I5]. rewrite app_nil_r in I4.
      do 3 (split; [assumption|]). split; [exact I4|]. split; [exact I5|]. exists [], ts, []. now repeat split.
    + destruct I4 as [I4 I5]. destruct mt; inversion E; subst s'; unfold PInv; cbn [p_main p_tasks p_evs];
        rewrite map_app || idtac; rewrite ?matches_app, ?matched_app, ?starts_app, ?ends_app, ?returns_app, ?flat_map_app; cbn [starts ends returns flat_map app matched matches filter map fst snd]; rewrite ?app_nil_r.
      * split; [now rewrite I1|]. split; [exact I2|]. split; [exact I3|]. rewrite map_app. cbn. rewrite <- app_assoc. split; [exact I4|exact I5].
      * split; [exact I1|]. split; [exact I2|]. split; [exact I3|]. rewrite map_app. cbn. rewrite <- app_assoc. split; [exact I4|exact I5].
    + destruct I4 as (I4 & I5 & t1 & rest & vs & -> & <- & J & ->).
      destruct rest as [|[c t] rest].
      * rewrite app_nil_r in *. rewrite (proj2 (nth_error_None t1 (List.length t1))) in E by lia. inversion E; subst s'. unfold PInv. cbn [p_main p_tasks p_evs].
        rewrite ?matches_app, ?matched_app, ?starts_app, ?ends_app. cbn. rewrite !app_nil_r. do 3 (split; [assumption|]).
        split; [exact I4|]. split; [now exists evs|]. now exists vs.
      * rewrite nth_error_app2, Nat.sub_diag in E by lia. cbn [nth_error] in E.
        assert (BAD : forall o, (forall v, o <> Val v) -> t = PEnded o -> s' = mkP (PRet o) (t1 ++ (c, t) :: rest) (evs ++ [PEReturn o]) -> PInv children s').
        { intros o No -> ->. unfold PInv. cbn [p_main p_tasks p_evs]. rewrite ?matches_app, ?matched_app, ?starts_app, ?ends_app, ?returns_app. cbn. rewrite !app_nil_r.
          do 3 (split; [assumption|]). rewrite I5. destruct o as [v|w| |]; [now destruct (No v)| | |];
          (split; [exact I4|]; split; [easy|]; exists c; rewrite in_app_iff; right; now left). }
        destruct t as [| |[v|w| |]]; try discriminate; inversion E; subst s'.
        -- unfold PInv. cbn [p_main p_tasks p_evs]. do 3 (split; [assumption|]). split; [exact I4|]. split; [exact I5|].
           exists (t1 ++ [(c, PEnded (Val v))]), rest, (vs ++ [v]). split; [now rewrite <- app_assoc|]. split; [rewrite app_length; cbn; lia|].
           split; [now apply joined_app|]. now rewrite st_sum_snoc.
        -- now apply (BAD (Thrown w)).
        -- now apply (BAD Escaped).
        -- now apply (BAD NoFuel).
  - destruct (nth_error ts i) as [[c t]|] eqn:En; [|discriminate]. destruct t; try discriminate. inversion E; subst s'.
    destruct (set_nth_split ts i (c, PQueued) (c, PRunning) En) as (a & b & -> & Hi & Es). rewrite Es.
    unfold PInv. cbn [p_main p_tasks p_evs].
    rewrite ?matches_app, ?matched_app, ?starts_app, ?ends_app, ?returns_app. rewrite !flat_map_app in *. rewrite !map_app in *. cbn in *. rewrite !app_nil_r.
    split; [exact I1|]. split; [|split; [exact I3|]].
    + rewrite Permutation_app_comm. cbn. rewrite <- Permutation_middle. now constructor.
    + destruct m as [todo|k st|[st|w| |]].
      * exact I4.
      * destruct I4 as (I4 & I5 & t1 & rest & vs & Et & <- & J & ->). split; [exact I4|]. split; [exact I5|].
        destruct (Nat.lt_ge_cases (List.length a) (List.length t1)) as [Hlt|Hge].
        -- exfalso. assert (H : nth_error t1 (List.length a) = Some (c, PQueued)).
           { rewrite <- (nth_error_app1 t1 rest Hlt), <- Et, nth_error_app2, Nat.sub_diag by lia. reflexivity. }
           apply nth_error_In, (in_map snd) in H. rewrite J in H. apply in_map_iff in H. destruct H as (z & H & _). discriminate.
        -- assert (Hf : firstn (List.length t1) (a ++ (c, PQueued) :: b) = t1) by (rewrite Et, firstn_app, Nat.sub_diag, firstn_all; cbn; now rewrite app_nil_r).
           rewrite firstn_app in Hf. replace (List.length t1 - List.length a) with 0 in Hf by lia. cbn in Hf. rewrite app_nil_r in Hf.
           exists t1, (skipn (List.length t1) (a ++ (c, PRunning) :: b)), vs. split; [|split; [easy|split; [exact J|easy]]].
           rewrite <- (firstn_skipn (List.length t1) (a ++ (c, PRunning) :: b)) at 1. f_equal.
           rewrite firstn_app. replace (List.length t1 - List.length a) with 0 by lia. cbn. now rewrite app_nil_r.
      * destruct I4 as (I4 & _ & vs & J & _). exfalso. unfold joined in J. rewrite map_app in J. cbn in J.
        assert (H : In PQueued (map (fun v : status => PEnded (Val v)) vs)) by (rewrite <- J, in_app_iff; right; now left).
        apply in_map_iff in H. destruct H as (z & H & _). discriminate.
      * destruct I4 as (I4 & I5 & c0 & Hc). split; [exact I4|]. split; [exact I5|]. exists c0. rewrite in_app_iff in *. destruct Hc as [Hc|[Hc|Hc]]; [now left|discriminate|right; now right].
      * destruct I4 as (I4 & I5 & c0 & Hc). split; [exact I4|]. split; [exact I5|]. exists c0. rewrite in_app_iff in *. destruct Hc as [Hc|[Hc|Hc]]; [now left|discriminate|right; now right].
      * destruct I4 as (I4 & I5 & c0 & Hc). split; [exact I4|]. split; [exact I5|]. exists c0. rewrite in_app_iff in *. destruct Hc as [Hc|[Hc|Hc]]; [now left|discriminate|right; now right].
  - destruct (nth_error ts i) as [[c t]|] eqn:En; [|discriminate]. destruct t; try discriminate. inversion E; subst s'.
    destruct (set_nth_split ts i (c, PRunning) (c, PEnded o) En) as (a & b & -> & Hi & Es). rewrite Es.
    unfold PInv. cbn [p_main p_tasks p_evs].
    rewrite ?matches_app, ?matched_app, ?starts_app, ?ends_app, ?returns_app. rewrite !flat_map_app in *. rewrite !map_app in *. cbn in *. rewrite !app_nil_r.
    split; [exact I1|]. split; [exact I2|]. split.
    + rewrite Permutation_app_comm. cbn. rewrite <- Permutation_middle. now constructor.
    + destruct m as [todo|k st|[st|w| |]].
      * exact I4.
      * destruct I4 as (I4 & I5 & t1 & rest & vs & Et & <- & J & ->). split; [exact I4|]. split; [exact I5|].
        destruct (Nat.lt_ge_cases (List.length a) (List.length t1)) as [Hlt|Hge].
        -- exfalso. assert (H : nth_error t1 (List.length a) = Some (c, PRunning)).
           { rewrite <- (nth_error_app1 t1 rest Hlt), <- Et, nth_error_app2, Nat.sub_diag by lia. reflexivity. }
           apply nth_error_In, (in_map snd) in H. rewrite J in H. apply in_map_iff in H. destruct H as (z & H & _). discriminate.
        -- assert (Hf : firstn (List.length t1) (a ++ (c, PRunning) :: b) = t1) by (rewrite Et, firstn_app, Nat.sub_diag, firstn_all; cbn; now rewrite app_nil_r).
           rewrite firstn_app in Hf. replace (List.length t1 - List.length a) with 0 in Hf by lia. cbn in Hf. rewrite app_nil_r in Hf.
           exists t1, (skipn (List.length t1) (a ++ (c, PEnded o) :: b)), vs. split; [|split; [easy|split; [exact J|easy]]].
           rewrite <- (firstn_skipn (List.length t1) (a ++ (c, PEnded o) :: b)) at 1. f_equal.
           rewrite firstn_app. replace (List.length t1 - List.length a) with 0 by lia. cbn. now rewrite app_nil_r.
      * destruct I4 as (I4 & _ & vs & J & _). exfalso. unfold joined in J. rewrite map_app in J. cbn in J.
        assert (H : In PRunning (map (fun v : status => PEnded (Val v)) vs)) by (rewrite <- J, in_app_iff; right; now left).
        apply in_map_iff in H. destruct H as (z & H & _). discriminate.
      * destruct I4 as (I4 & I5 & c0 & Hc). split; [exact I4|]. split; [exact I5|]. exists c0. rewrite in_app_iff in *. destruct Hc as [Hc|[Hc|Hc]]; [now left|discriminate|right; now right].
      * destruct I4 as (I4 & I5 & c0 & Hc). split; [exact I4|]. split; [exact I5|]. exists c0. rewrite in_app_iff in *. destruct Hc as [Hc|[Hc|Hc]]; [now left|discriminate|right; now right].
      * destruct I4 as (I4 & I5 & c0 & Hc). split; [exact I4|]. split; [exact I5|]. exists c0. rewrite in_app_iff in *. destruct Hc as [Hc|[Hc|Hc]]; [now left|discriminate|right; now right].
Qed.
Lemma PInv_steps children ls : forall s s', PInv children s -> par_steps s ls = Some s' -> PInv children s'.
Proof.
  induction ls as [|l ls IH]; intros s s' I E; cbn in E; [now inversion E; subst|].
  destruct (par_step s l) as [s1|] eqn:E1; [|discriminate]. apply (IH s1 s'); [|exact E]. now apply (PInv_step children s l).
Qed.

(** Progress and termination. *)
Lemma par_progress children s : PInv children s -> (forall o, p_main s <> PRet o) -> exists lb s', par_step s lb = Some s'.
Proof.
  intros (_ & _ & _ & I) Hm. destruct s as [m ts evs]. cbn [p_main p_tasks p_evs] in *. destruct m as [[|c cs]|i st|o].
  - exists (PLMain true). now eexists.
  - exists (PLMain true). now eexists.
  - destruct (nth_error ts i) as [[c t]|] eqn:En.
    + destruct t as [| |o].
      * exists (PLStart i). cbn. rewrite En. now eexists.
      * exists (PLEnd i (Val st_default)). cbn. rewrite En. now eexists.
      * exists (PLMain true). cbn. rewrite En. destruct o; now eexists.
    + exists (PLMain true). cbn. rewrite En. now eexists.
  - now destruct (Hm o).
Qed.
Definition t_weight (t : nat * ptask) : nat := match snd t with PQueued => 2 | PRunning => 1 | PEnded _ => 0 end.
Definition par_measure (n : nat) (s : pstate) : nat :=
  sumf t_weight (p_tasks s) +
  match p_main s with PCommit todo => 4 * List.length todo + List.length (p_tasks s) + 2 | PJoin i _ => List.length (p_tasks s) - i + 1 | PRet _ => 0 end.
Lemma set_nth_length {A} (l : list A) i x : List.length (set_nth l i x) = List.length l.
Proof. revert i. induction l as [|a l IH]; intros [|i]; cbn; auto. Qed.
Lemma par_measure_step n s lb s' : par_step s lb = Some s' -> par_measure n s' < par_measure n s.
Proof.
  intro E. destruct s as [m ts evs]. unfold par_measure. destruct lb as [mt|i|i o]; cbn [par_step p_main p_tasks p_evs] in E.
  - destruct m as [[|c cs]|i st|o]; [| | |discriminate].
    + inversion E; subst. cbn. lia.
    + destruct mt; inversion E; subst; cbn [p_main p_tasks List.length]; rewrite ?sumf_app, ?app_length; cbn; lia.
    + destruct (nth_error ts i) as [[c t]|] eqn:En.
      * assert (Hi : i < List.length ts) by (apply nth_error_Some; congruence).
        destruct t as [| |[v|w| |]]; try discriminate; inversion E; subst; cbn [p_main p_tasks]; lia.
      * inversion E; subst. cbn [p_main p_tasks]. lia.
  - destruct (nth_error ts i) as [[c t]|] eqn:En; [|discriminate]. destruct t; try discriminate. inversion E; subst. cbn [p_main p_tasks].
    rewrite set_nth_length. destruct (set_nth_split ts i _ (c, PRunning) En) as (a & b & -> & _ & ->). rewrite !sumf_app. cbn. lia.
  - destruct (nth_error ts i) as [[c t]|] eqn:En; [|discriminate]. destruct t; try discriminate. inversion E; subst. cbn [p_main p_tasks].
    rewrite set_nth_length. destruct (set_nth_split ts i _ (c, PEnded o) En) as (a & b & -> & _ & ->). rewrite !sumf_app. cbn. lia.
Qed.
Lemma par_bounded n ls : forall s s', par_steps s ls = Some s' -> List.length ls + par_measure n s' <= par_measure n s.
Proof.
  induction ls as [|l ls IH]; intros s s' E; cbn in E; [inversion E; subst; cbn; lia|].
  destruct (par_step s l) as [s1|] eqn:E1; [|discriminate]. apply IH in E. apply (par_measure_step n) in E1. cbn [List.length]. lia.
Qed.
