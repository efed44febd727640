(** Whole-pipeline lemmas: init, run, destroy, process, histories. *)
From Verif Require Import PipeModel PipeProofs ElemProofs StatusProofs.
From Coq Require Import Lia.
Local Open Scope nat_scope.
Local Open Scope list_scope.

Definition ok_out (o : out status) : bool := match o with Val s => (0 <=? code s)%Z | _ => false end.
Lemma ok_out_val o : ok_out o = true -> exists s, o = Val s /\ (0 <= code s)%Z.
Proof. destruct o; cbn; try discriminate. intro H. apply Z.leb_le in H. eauto. Qed.
Lemma ok_val s : ok_out (Val s) = true <-> (0 <= code s)%Z.
Proof. cbn. apply Z.leb_le. Qed.
Lemma bad_val s : ok_out (Val s) = false <-> (code s < 0)%Z.
Proof. cbn. apply Z.leb_gt. Qed.

Section L.
Variable ask : pask.
Notation faith := (pfaithful ask).

(** All children of the element trees, as a log segment of calls [cs] answered by [ask] from log [l]. *)
Definition segment (l d : plog) (cs : list pcall) : Prop := map fst d = cs /\ faith l d.
Lemma seg_app l d1 d2 c1 c2 : segment l d1 c1 -> segment (l ++ d1) d2 c2 -> segment l (d1 ++ d2) (c1 ++ c2).
Proof. intros [H1 F1] [H2 F2]. split; [rewrite map_app; now f_equal|now apply pf_app]. Qed.

Lemma init_env_spec p p' o : init_env ask p = (p', o) ->
  pp_init p' = pp_init p /\ pp_flag p' = pp_flag p /\ pp_cfg p' = pp_cfg p /\
  (exists d, pp_log p' = pp_log p ++ d /\ faith (pp_log p) d /\ (forall c r, In (c, r) d -> exists e, c = KSuit e) /\
    (ok_out o = true -> map fst d = map KSuit (all_ids (pp_cfg p)) /\ Forall (fun e => (0 <= code (pr_st (snd e)))%Z) d)) /\
  (ok_out o = true -> existsb (pp_flag p) (all_ids (pp_cfg p)) = false /\ c_shared (pp_cfg p) <> Some false /\
     pp_cancel p' = false /\ (c_shared (pp_cfg p) = None -> pp_pool p' = true)) /\
  (existsb (pp_flag p) (all_ids (pp_cfg p)) = true -> ok_out o = false).
Proof.
  unfold init_env. intro E.
  assert (NIL : exists d, pp_log p = pp_log p ++ d /\ faith (pp_log p) d /\ (forall c r, In (c, r) d -> exists e, c = KSuit e) /\
     (false = true -> map fst d = map KSuit (all_ids (pp_cfg p)) /\ Forall (fun e => (0 <= code (pr_st (snd e)))%Z) d)).
  { exists []. rewrite app_nil_r. split; [easy|]. split; [apply pf_nil|]. split; [now intros|discriminate]. }
  assert (SH : c_shared (pp_cfg p) = Some false \/ c_shared (pp_cfg p) <> Some false) by (destruct (c_shared (pp_cfg p)) as [[]|]; auto; right; discriminate).
  destruct SH as [Esh|Esh].
  - rewrite Esh in E. injection E as <- <-. do 3 (split; [easy|]). split; [exact NIL|]. split; [cbn; discriminate|reflexivity].
  - set (pool := match c_shared (pp_cfg p) with None => true | _ => pp_pool p end) in *.
    assert (E' : (if existsb (pp_flag p) (all_ids (pp_cfg p))
        then (mkPipe (pp_init p) (pp_flag p) (pp_cfg p) pool (pp_cancel p) (pp_log p), Thrown "[CException] init status is not suitable")
        else let '(l, o) := suit_loop ask (all_ids (pp_cfg p)) st_default (pp_log p) in
        match o with
        | Val st => (mkPipe (pp_init p) (pp_flag p) (pp_cfg p) pool (if isErr st then pp_cancel p else false) l, Val (st_plus st_default st))
        | o => (mkPipe (pp_init p) (pp_flag p) (pp_cfg p) pool (pp_cancel p) l, o)
        end) = (p', o)).
    { unfold pool in *. destruct (c_shared (pp_cfg p)) as [[]|]; first [exact E|now destruct Esh]. }
    clear E. destruct (existsb (pp_flag p) (all_ids (pp_cfg p))) eqn:Ex.
    + injection E' as <- <-. cbn [pp_init pp_flag pp_cfg pp_log]. do 3 (split; [easy|]). split; [exact NIL|]. split; [cbn; discriminate|reflexivity].
    + destruct (suit_loop ask (all_ids (pp_cfg p)) st_default (pp_log p)) as [l o1] eqn:Es.
      destruct (suit_loop_spec ask _ _ _ _ _ code_default Es) as (d & -> & F & M & H).
      assert (KS : forall c r, In (c, r) d -> exists e, c = KSuit e).
      { intros c r Hin. apply (in_map fst) in Hin. rewrite M in Hin. apply in_map_iff in Hin. destruct Hin as (e & X & _). exists e. now symmetry. }
      destruct H as [(v & -> & Hv & Hlen & Hall)|(d0 & e & -> & He & Ho)].
      * injection E' as <- <-. cbn [pp_init pp_flag pp_cfg pp_log pp_pool pp_cancel]. do 3 (split; [easy|]). split.
        { exists d. split; [easy|]. split; [exact F|]. split; [exact KS|]. intros _. split; [|exact Hall]. rewrite M, Hlen. now rewrite firstn_all. }
        split; [|discriminate]. intros _. split; [easy|]. split; [exact Esh|]. apply isErr_ge in Hv. rewrite Hv. split; [easy|]. intro X. unfold pool. now rewrite X.
      * assert (X : pp_init p' = pp_init p /\ pp_flag p' = pp_flag p /\ pp_cfg p' = pp_cfg p /\ pp_log p' = pp_log p ++ d0 ++ [e] /\ ok_out o = false).
        { subst o1. destruct (code (pr_st (snd e)) =? -996)%Z; injection E' as <- <-; do 4 (split; [easy|]); [easy|].
          apply bad_val. rewrite plus_err by exact He. exact He. }
        destruct X as (-> & -> & -> & -> & ->). do 3 (split; [easy|]). split; [|split; [discriminate|easy]].
        exists (d0 ++ [e]). split; [easy|]. split; [exact F|]. split; [exact KS|discriminate].
Qed.

(** The log segments of a successful init, in order. *)
Definition init_calls (c : cfg) : list pcall :=
  map KSuit (all_ids c) ++ map KPInit (c_params c) ++ map KEvInit (c_events c) ++ mgr_calls true None (c_elems c) ++ map KDmInit (c_daemons c).
Definition destroy_calls (c : cfg) : list pcall :=
  map KEvDestroy (c_events c) ++ map KDmDestroy (c_daemons c) ++ mgr_calls false None (c_elems c) ++ map KPDestroy (c_params c).

Lemma pipe_init_spec p p' o : pipe_init ask p = (p', o) ->
  pp_cfg p' = pp_cfg p /\
  (forall x, pp_flag p' x = pp_flag p x \/ (pp_flag p' x = true /\ In x (mgr_ids (c_elems (pp_cfg p))) /\ pp_init p = false)) /\
  (exists d, pp_log p' = pp_log p ++ d /\ faith (pp_log p) d) /\
  (if ok_out o then
     o = Val st_default /\
     pp_init p = false /\ pp_init p' = true /\ pp_cancel p' = false /\ (c_shared (pp_cfg p) = None -> pp_pool p' = true) /\
     existsb (pp_flag p) (all_ids (pp_cfg p)) = false /\
     (forall x, In x (mgr_ids (c_elems (pp_cfg p))) -> pp_flag p' x = true) /\
     (exists d, pp_log p' = pp_log p ++ d /\ segment (pp_log p) d (init_calls (pp_cfg p)))
   else pp_init p' = pp_init p) /\
  (pp_init p = true -> p' = p /\ o = Val not_suitable) /\
  (existsb (pp_flag p) (all_ids (pp_cfg p)) = true -> ok_out o = false /\ pp_flag p' = pp_flag p).
Proof.
  unfold pipe_init. intro E. destruct (pp_init p) eqn:Ei.
  - injection E as <- <-. split; [easy|]. split; [auto|]. split; [exists []; rewrite app_nil_r; split; [easy|apply pf_nil]|]. split; [exact Ei|]. split; [auto|]. auto.
  - destruct (init_env ask p) as [p1 o1] eqn:E1. destruct (init_env_spec _ _ _ E1) as (I1 & FL1 & C1 & (d1 & L1 & F1 & KS & OK1) & OKE & BAD).
    assert (EARLY : p' = p1 -> ok_out o = false -> pp_cfg p' = pp_cfg p /\
      (forall x, pp_flag p' x = pp_flag p x \/ (pp_flag p' x = true /\ In x (mgr_ids (c_elems (pp_cfg p))) /\ false = false)) /\
      (exists d, pp_log p' = pp_log p ++ d /\ faith (pp_log p) d) /\
      (if ok_out o then o = Val st_default /\ false = false /\ pp_init p' = true /\ pp_cancel p' = false /\ (c_shared (pp_cfg p) = None -> pp_pool p' = true) /\
         existsb (pp_flag p) (all_ids (pp_cfg p)) = false /\ (forall x, In x (mgr_ids (c_elems (pp_cfg p))) -> pp_flag p' x = true) /\
         (exists d, pp_log p' = pp_log p ++ d /\ segment (pp_log p) d (init_calls (pp_cfg p))) else pp_init p' = false) /\
      (false = true -> p' = p /\ o = Val not_suitable) /\
      (existsb (pp_flag p) (all_ids (pp_cfg p)) = true -> ok_out o = false /\ pp_flag p' = pp_flag p)).
    { intros -> Ho. split; [exact C1|]. split; [intro x; left; now rewrite FL1|]. split; [exists d1; auto|]. rewrite Ho. split; [congruence|]. split; [discriminate|auto]. }
    destruct o1 as [v|m| |]; cbn [ok_out] in *;
      try (injection E as <- <-; apply EARLY; [reflexivity|reflexivity]).
    destruct (Z_lt_ge_dec (code v) 0) as [Hv|Hv].
    + rewrite plus_err, check_status_err in E by exact Hv. apply EARLY; destruct (code v =? -996)%Z; injection E as <- <-; try reflexivity. now apply bad_val.
    + rewrite plus_ok, check_status_ok in E by (first [apply code_default|lia]).
      assert (Hv' : (0 <=? code v)%Z = true) by (apply Z.leb_le; lia). rewrite Hv' in *. destruct (OK1 eq_refl) as (M1 & _). destruct (OKE eq_refl) as (NF & SH & CAN & POOL).
      destruct (add_loop ask KPInit (c_params (pp_cfg p1)) st_default (pp_log p1)) as [l1 s1] eqn:EA1.
      destruct (add_loop ask KEvInit (c_events (pp_cfg p1)) st_default l1) as [l2 s2] eqn:EA2.
      destruct (add_loop_spec ask _ _ _ _ _ _ EA1) as (x1 & -> & X1 & _ & XF1). destruct (add_loop_spec ask _ _ _ _ _ _ EA2) as (x2 & -> & X2 & _ & XF2).
      match type of E with context [mgr_life ?a ?b ?c ?d ?e ?f] => destruct (mgr_life a b c d e f) as [[fl l3] o3] eqn:EM end.
      destruct (mgr_life_spec ask true _ None _ (fat_life_all ask true _) _ _ _ _ _ EM) as (x3 & -> & XF3 & A3 & O3 & S3 & _).
      clear EA1 EA2 EM. rewrite ?C1 in X1, X2, A3, S3, E. rewrite ?FL1 in A3. rewrite ?L1 in XF1, XF2, XF3, E.
      assert (BADC : forall q ob, (q, ob) = (p', o) -> pp_cfg q = pp_cfg p -> pp_init q = false -> pp_flag q = fl -> ok_out ob = false -> (exists d, pp_log q = pp_log p ++ d /\ faith (pp_log p) d) ->
        pp_cfg p' = pp_cfg p /\
      (forall x, pp_flag p' x = pp_flag p x \/ (pp_flag p' x = true /\ In x (mgr_ids (c_elems (pp_cfg p))) /\ false = false)) /\
      (exists d, pp_log p' = pp_log p ++ d /\ faith (pp_log p) d) /\
      (if ok_out o then o = Val st_default /\ false = false /\ pp_init p' = true /\ pp_cancel p' = false /\ (c_shared (pp_cfg p) = None -> pp_pool p' = true) /\
         existsb (pp_flag p) (all_ids (pp_cfg p)) = false /\ (forall x, In x (mgr_ids (c_elems (pp_cfg p))) -> pp_flag p' x = true) /\
         (exists d, pp_log p' = pp_log p ++ d /\ segment (pp_log p) d (init_calls (pp_cfg p))) else pp_init p' = false) /\
      (false = true -> p' = p /\ o = Val not_suitable) /\
      (existsb (pp_flag p) (all_ids (pp_cfg p)) = true -> ok_out o = false /\ pp_flag p' = pp_flag p)).
      { intros q ob Eq Hc Hi Hf Hob Hl. injection Eq as <- <-. split; [exact Hc|]. split.
        { intro x. rewrite Hf. destruct (A3 x) as [H|[H1 H2]]; [left; exact H|right; auto]. }
        split; [exact Hl|]. rewrite Hob. split; [exact Hi|]. split; [discriminate|]. rewrite NF. discriminate. }
      assert (FA : faith (pp_log p) (((d1 ++ x1) ++ x2) ++ x3)).
      { repeat apply pf_app; rewrite ?app_assoc; assumption. }
      destruct O3 as [[s3 ->]|[m ->]].
      * destruct (add_loop ask KDmInit (c_daemons (pp_cfg p)) st_default ((((pp_log p ++ d1) ++ x1) ++ x2) ++ x3)) as [l4 s4] eqn:EA4.
        destruct (add_loop_spec ask _ _ _ _ _ _ EA4) as (x4 & -> & X4 & _ & XF4).
        set (st := st_plus (st_plus (st_plus (st_plus st_default s1) s2) s3) s4) in *.
        assert (FA4 : faith (pp_log p) ((((d1 ++ x1) ++ x2) ++ x3) ++ x4)).
        { apply pf_app; [exact FA|]. now rewrite !app_assoc. }
        destruct (Z_lt_ge_dec (code st) 0) as [Hst|Hst].
        -- rewrite check_status_err in E by exact Hst. destruct (code st =? -996)%Z.
           ++ apply (BADC _ _ E); try reflexivity. eexists; split; [cbn [pp_log]; rewrite <- !app_assoc; reflexivity|rewrite !app_assoc; exact FA4].
           ++ apply (BADC _ _ E); try reflexivity; [now apply bad_val|]. eexists; split; [cbn [pp_log]; rewrite <- !app_assoc; reflexivity|rewrite !app_assoc; exact FA4].
        -- rewrite check_status_ok in E by lia. injection E as <- <-. cbn [pp_cfg pp_flag pp_log pp_init pp_cancel pp_pool].
           assert (OKs : (0 <= code s3)%Z). { assert (H : (0 <= code st)%Z) by lia. unfold st in H. rewrite !plus_nonneg in H. tauto. }
           destruct (S3 s3 eq_refl OKs) as (M3 & F3).
           assert (Hok : ok_out (Val st) = true) by (apply ok_val; lia). rewrite Hok.
           split; [easy|]. split. { intro x. destruct (A3 x) as [H|[H1 H2]]; [left; exact H|right; auto]. }
           split; [eexists; split; [rewrite <- !app_assoc; reflexivity|rewrite !app_assoc; exact FA4]|]. split.
           ++ split. { f_equal. assert (H : (0 <= code st)%Z) by lia. unfold st in *. rewrite !plus_nonneg in H. destruct H as ((((H0 & H1) & H2) & H3) & H4).
                 rewrite (plus_ok s1), (plus_ok s2), (plus_ok s3), (plus_ok s4); tauto. }
              split; [easy|]. split; [easy|]. split; [exact CAN|]. split; [exact POOL|]. split; [exact NF|]. split; [exact F3|].
              exists ((((d1 ++ x1) ++ x2) ++ x3) ++ x4). split; [now rewrite !app_assoc|]. split; [|exact FA4].
              unfold init_calls. rewrite !map_app, M1, X1, X2, M3, X4. now rewrite !app_assoc.
           ++ split; [discriminate|]. rewrite NF. discriminate.
      * apply (BADC _ _ E); try reflexivity. eexists; split; [cbn [pp_log]; rewrite <- !app_assoc; reflexivity|rewrite !app_assoc; exact FA].
Qed.

Lemma pipe_destroy_spec p p' o : pipe_destroy ask p = (p', o) ->
  pp_cfg p' = pp_cfg p /\
  (forall x, pp_flag p' x = pp_flag p x \/ (pp_flag p' x = false /\ In x (mgr_ids (c_elems (pp_cfg p))))) /\
  (if ok_out o then
     o = Val st_default /\
     pp_init p = true /\ pp_init p' = false /\ (c_shared (pp_cfg p) = None -> pp_pool p' = false) /\
     (forall x, In x (mgr_ids (c_elems (pp_cfg p))) -> pp_flag p' x = false) /\
     (exists d, pp_log p' = pp_log p ++ d /\ segment (pp_log p) d (destroy_calls (pp_cfg p)))
   else pp_init p' = pp_init p) /\
  (pp_init p = false -> p' = p /\ o = Val not_suitable) /\
  (pp_init p = true -> c_shared (pp_cfg p) = None -> pp_pool p' = false).
Proof.
  unfold pipe_destroy. intro E. destruct (pp_init p) eqn:Ei; cbn [negb] in E.
  2:{ injection E as <- <-. split; [easy|]. split; [auto|]. split; [exact Ei|]. split; [auto|]. discriminate. }
  destruct (add_loop ask KEvDestroy (c_events (pp_cfg p)) st_default (pp_log p)) as [l1 s1] eqn:EA1.
  destruct (add_loop ask KDmDestroy (c_daemons (pp_cfg p)) st_default l1) as [l2 s2] eqn:EA2.
  destruct (add_loop_spec ask _ _ _ _ _ _ EA1) as (x1 & -> & X1 & _ & XF1). destruct (add_loop_spec ask _ _ _ _ _ _ EA2) as (x2 & -> & X2 & _ & XF2).
  match type of E with context [mgr_life ?a ?b ?c ?d ?e ?f] => destruct (mgr_life a b c d e f) as [[fl l3] o3] eqn:EM end.
  destruct (mgr_life_spec ask false _ None _ (fat_life_all ask false _) _ _ _ _ _ EM) as (x3 & -> & XF3 & A3 & O3 & S3 & _).
  set (pool := match c_shared (pp_cfg p) with None => false | _ => pp_pool p end) in *.
  assert (PL : c_shared (pp_cfg p) = None -> pool = false) by (intro X; unfold pool; now rewrite X).
  assert (BADC : forall q ob, (q, ob) = (p', o) -> pp_cfg q = pp_cfg p -> pp_init q = true -> pp_flag q = fl -> pp_pool q = pool -> ok_out ob = false ->
    pp_cfg p' = pp_cfg p /\
    (forall x, pp_flag p' x = pp_flag p x \/ (pp_flag p' x = false /\ In x (mgr_ids (c_elems (pp_cfg p))))) /\
    (if ok_out o then o = Val st_default /\ true = true /\ pp_init p' = false /\ (c_shared (pp_cfg p) = None -> pp_pool p' = false) /\
       (forall x, In x (mgr_ids (c_elems (pp_cfg p))) -> pp_flag p' x = false) /\
       (exists d, pp_log p' = pp_log p ++ d /\ segment (pp_log p) d (destroy_calls (pp_cfg p))) else pp_init p' = true) /\
    (true = false -> p' = p /\ o = Val not_suitable) /\ (true = true -> c_shared (pp_cfg p) = None -> pp_pool p' = false)).
  { intros q ob Eq Hc Hi Hf Hp Hob. injection Eq as <- <-. split; [exact Hc|]. split; [rewrite Hf; exact A3|]. rewrite Hob. split; [exact Hi|]. split; [discriminate|].
    intros _. rewrite Hp. exact PL. }
  destruct O3 as [[s3 ->]|[m ->]].
  - destruct (add_loop ask KPDestroy (c_params (pp_cfg p)) st_default (((pp_log p ++ x1) ++ x2) ++ x3)) as [l4 s4] eqn:EA4.
    destruct (add_loop_spec ask _ _ _ _ _ _ EA4) as (x4 & -> & X4 & _ & XF4).
    set (st := st_plus (st_plus (st_plus (st_plus st_default s1) s2) s3) s4) in *.
    destruct (Z_lt_ge_dec (code st) 0) as [Hst|Hst].
    + rewrite check_status_err in E by exact Hst. destruct (code st =? -996)%Z.
      * apply (BADC _ _ E); reflexivity.
      * apply (BADC _ _ E); try reflexivity. now apply bad_val.
    + rewrite check_status_ok in E by lia. injection E as <- <-. cbn [pp_cfg pp_flag pp_log pp_init pp_cancel pp_pool].
      assert (H : (0 <= code st)%Z) by lia. unfold st in H. rewrite !plus_nonneg in H. destruct H as ((((H0 & H1) & H2) & H3) & H4).
      destruct (S3 s3 eq_refl H3) as (M3 & F3). assert (Hok : ok_out (Val st) = true) by (apply ok_val; lia). rewrite Hok.
      split; [easy|]. split; [exact A3|]. split; [|split; [discriminate|auto]].
      split. { f_equal. unfold st. rewrite (plus_ok s1), (plus_ok s2), (plus_ok s3), (plus_ok s4); tauto. }
      split; [easy|]. split; [easy|]. split; [exact PL|]. split; [exact F3|].
      exists (((x1 ++ x2) ++ x3) ++ x4). split; [now rewrite !app_assoc|].
      split; [unfold destroy_calls; rewrite !map_app, X1, X2, M3, X4; now rewrite !app_assoc|].
      repeat apply pf_app; rewrite ?app_assoc; assumption.
  - apply (BADC _ _ E); reflexivity.
Qed.

(** One run, when accepted. *)
Lemma pipe_run_spec p p' o : pipe_run ask p = (p', o) -> pp_init p = true ->
  pp_init p' = true /\ pp_flag p' = pp_flag p /\ pp_pool p' = pp_pool p /\ c_elems (pp_cfg p') = c_elems (pp_cfg p) /\ c_shared (pp_cfg p') = c_shared (pp_cfg p) /\
  exists ds, segment (pp_log p) ds (map KPSetup (c_params (pp_cfg p))) /\
    ((exists s, find (fun e => isErr (pr_st (snd e))) ds = Some s /\ pp_log p' = pp_log p ++ ds /\ pp_cfg p' = pp_cfg p /\ pp_cancel p' = false /\
        o = if (code (pr_st (snd s)) =? -996)%Z then Thrown (what_of (info (pr_st (snd s)))) else Val (pr_st (snd s))) \/
     (find (fun e => isErr (pr_st (snd e))) ds = None /\
        let a := ask (pp_log p ++ ds) KEngine in
        let ps := c_params (pp_cfg p) ++ pr_new a in
        c_params (pp_cfg p') = ps /\ pp_cancel p' = pr_flag a /\
        ((exists m, pr_thr a = Some m /\ o = Thrown m /\ pp_log p' = pp_log p ++ ds ++ [(KEngine, a)]) \/
         (pr_thr a = None /\ exists dh dw dr st,
            o = Val st /\ st = st_sum (st_assign st_default (pr_st a)) (map (fun e => pr_st (snd e)) dh) /\
            segment (pp_log p ++ ds ++ [(KEngine, a)]) (dh ++ dw ++ dr)
              (map KHeld (c_held (pp_cfg p)) ++ map KEvWait (c_events (pp_cfg p)) ++ map (fun k => KPReset k st) ps) /\
            map fst dh = map KHeld (c_held (pp_cfg p)) /\
            pp_log p' = pp_log p ++ ds ++ [(KEngine, a)] ++ dh ++ dw ++ dr)))).
Proof.
  unfold pipe_run. intros E Hi. rewrite Hi in E. cbn [negb] in E.
  destruct (add_loop ask KPSetup (c_params (pp_cfg p)) st_default (pp_log p)) as [l1 s1] eqn:EA1.
  destruct (add_loop_spec ask _ _ _ _ _ _ EA1) as (ds & -> & X1 & SS & XF1).
  rewrite st_sum_spec in SS by reflexivity.
  assert (FM : forall (d : plog), find isErr (map (fun e => pr_st (snd e)) d) = option_map (fun e => pr_st (snd e)) (find (fun e => isErr (pr_st (snd e))) d)).
  { induction d as [|x d IH]; [reflexivity|]. cbn. destruct (isErr (pr_st (snd x))); [reflexivity|exact IH]. }
  rewrite FM in SS. destruct (find (fun e => isErr (pr_st (snd e))) ds) as [s|] eqn:Ef; cbn [option_map] in SS; subst s1.
  - assert (Hs : (code (pr_st (snd s)) < 0)%Z) by (apply isErr_lt; now apply find_some in Ef).
    rewrite plus_err, check_status_err in E by exact Hs.
    assert (X : p' = mkPipe true (pp_flag p) (pp_cfg p) (pp_pool p) false (pp_log p ++ ds) /\
      o = if (code (pr_st (snd s)) =? -996)%Z then Thrown (what_of (info (pr_st (snd s)))) else Val (pr_st (snd s))).
    { destruct (code (pr_st (snd s)) =? -996)%Z; injection E as <- <-; auto. }
    destruct X as [-> ->]. cbn [pp_init pp_flag pp_pool pp_cfg pp_log pp_cancel]. do 5 (split; [easy|]). exists ds. split; [now split|]. left. exists s. auto.
  - change (st_plus st_default st_default) with st_default in E. rewrite check_status_ok in E by apply code_default.
    set (a := ask (pp_log p ++ ds) KEngine) in *. cbv zeta in E. destruct (pr_thr a) as [m|] eqn:Et.
    + injection E as <- <-. cbn [pp_init pp_flag pp_pool pp_cfg pp_log pp_cancel c_elems c_shared c_params]. do 5 (split; [easy|]). exists ds. split; [now split|]. right.
      split; [easy|]. cbv zeta. fold a. split; [easy|]. split; [easy|]. left. exists m. split; [exact Et|]. split; [easy|]. now rewrite app_assoc.
    + destruct (add_loop ask KHeld (c_held (pp_cfg p)) st_default ((pp_log p ++ ds) ++ [(KEngine, a)])) as [l3 s3] eqn:EA3.
      destruct (add_loop_spec ask _ _ _ _ _ _ EA3) as (dh & -> & X3 & S3 & XF3).
      destruct (void_loop_spec ask KEvWait (c_events (pp_cfg p)) (((pp_log p ++ ds) ++ [(KEngine, a)]) ++ dh)) as (dw & EW & X4 & XF4). rewrite EW in E.
      set (st := st_plus (st_plus (st_assign st_default (pr_st a)) s3) st_default) in *.
      destruct (void_loop_spec ask (fun k => KPReset k st) (c_params (pp_cfg p) ++ pr_new a) ((((pp_log p ++ ds) ++ [(KEngine, a)]) ++ dh) ++ dw)) as (dr & ER & X5 & XF5).
      cbn [c_params] in E. rewrite ER in E. injection E as <- <-. cbn [pp_init pp_flag pp_pool pp_cfg pp_log pp_cancel c_elems c_shared c_params]. do 5 (split; [easy|]).
      exists ds. split; [now split|]. right. split; [easy|]. cbv zeta. fold a. split; [easy|]. split; [easy|]. right. split; [exact Et|]. exists dh, dw, dr, st. split; [easy|]. split.
      { unfold st. assert (Z : forall x, st_plus x st_default = x) by (intro x; unfold st_plus; cbn [isErr st_default code]; destruct (isErr x); reflexivity).
        rewrite Z, S3.
        assert (Y : forall t, st_plus t (st_sum st_default (map (fun e => pr_st (snd e)) dh)) = st_sum t (map (fun e => pr_st (snd e)) dh)).
        { intro t. destruct (isErr t) eqn:Et'.
          - rewrite (st_sum_err _ t) by exact Et'. unfold st_plus. now rewrite Et'.
          - rewrite !st_sum_spec by (first [reflexivity|exact Et']). rewrite FM. destruct (find _ dh) as [x|] eqn:Fx; cbn [option_map].
            + apply find_some in Fx. destruct Fx as [_ Fx]. unfold st_plus. rewrite Et', Fx. cbn [negb andb]. apply eta_st.
            + apply Z. }
        apply Y. }
      split; [|split; [exact X3|now rewrite !app_assoc]].
      apply seg_app; [split; [exact X3|now rewrite app_assoc]|]. apply seg_app; [split; [exact X4|now rewrite !app_assoc]|]. split; [exact X5|now rewrite !app_assoc].
Qed.
End L.
