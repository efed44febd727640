(** C105 *)
From Verif Require Import PassSpec PassProofs.
From Coq Require Import Lia.
Local Open Scope nat_scope.
Local Open Scope list_scope.

(** For any clone method, any elements and any calls, none of which gives somebody the parameter they hold already: no deleted object is
    read, written or deleted again, and every answer is the one of the semantics without pointers. (If that one has no answer, somebody
    writes through a null pointer.) *)
Theorem C105_values_partial : forall cl all h,
  (forall op, In op h -> ~ to_itself op) ->
  option_map snd (d_run cl all d_new h) = option_map snd (v_run cl all v_new h).
Proof.
  intros cl all h N. pose proof (run_R cl all h d_new v_new (R_new all) N) as H. destruct (v_run cl all v_new h) as [[v l]|].
  - destruct H as (s & E & _). now rewrite E.
  - now rewrite H.
Qed.

Lemma v_asp_mono cl all e k v op v1 a : v_step cl all v op = Some (v1, a) -> ~ touches e k op -> k < v_asp v e ->
  k < v_asp v1 e /\ v_own v1 (WAsp e k) = v_own v (WAsp e k).
Proof.
  intros S N L.
  assert (PA : forall u w T r, v_asp (v_pass cl u w T r) = v_asp u) by (intros u w T r; unfold v_pass; now destruct (v_ref u r) as [[? ?]|]).
  assert (PO : forall u w T r, w <> WAsp e k -> v_own (v_pass cl u w T r) (WAsp e k) = v_own u (WAsp e k)).
  { intros u w T r H. unfold v_pass. destruct (v_ref u r) as [[? ?]|]; trivial. cbn [v_with v_own]. apply updw_other. congruence. }
  assert (AS : forall T r u e', k < v_asp u e -> k < v_asp (v_aspect cl u e' T r) e /\ v_own (v_aspect cl u e' T r) (WAsp e k) = v_own u (WAsp e k)).
  { intros T r u e' Lu. unfold v_aspect. cbn [v_asp v_own]. rewrite !PA. split.
    - destruct (Nat.eq_dec e e') as [->|M]; [rewrite upd_same|rewrite upd_other by trivial]; lia.
    - apply PO. intros EQ. injection EQ as -> <-. lia. }
  destruct op as [n T x|n|r x|e' T r|es T r|e' k' T r|e'|T r|k' T r|k' T r|k' T r|e' k' T r|e' k' T|e' k' T|w|b|]; cbn [v_step touches] in S, N.
  - destruct (v_var v n); now injection S as <- <-.
  - destruct (v_var v n); now injection S as <- <-.
  - destruct (v_ref v r) as [[T y]|]; [|discriminate]. destruct r as [m|w|]; [| |discriminate]; injection S as <- <-; [now split|].
    cbn [v_with v_asp v_own]. split; trivial. apply updw_other. congruence.
  - destruct (memb e' all); injection S as <- <-; [now apply AS|now split].
  - destruct (v_init v); injection S as <- <-; [now split|].
    generalize (filter (fun e0 => memb e0 all) (nodup Nat.eq_dec match es with [] => all | _ => es end)). intros q. revert v L.
    induction q as [|x q IH]; intros v L; cbn [fold_left]; [now split|]. destruct (AS T r v x L) as [L1 O1].
    destruct (IH (v_aspect cl v x T r) L1) as [L2 O2]. split; trivial. congruence.
  - destruct (v_there v (WAsp e' k')); injection S as <- <-; [|now split]. rewrite PA. split; trivial. apply PO. intros EQ. apply N. now injection EQ as -> ->.
  - destruct (v_init v), (v_asp v e') as [|j]; injection S as <- <-; try (now split). cbn [v_asp v_own]. rewrite upd_other by congruence.
    split; trivial. apply updw_other. congruence.
  - destruct (v_init v); injection S as <- <-; [now split|]. cbn [v_asp v_own]. rewrite PA. split; trivial. now apply PO.
  - destruct (v_there v (WDae k')); injection S as <- <-; [|now split]. rewrite PA. split; trivial. now apply PO.
  - destruct (v_init v || memb k' (v_ev v)); injection S as <- <-; [now split|]. cbn [v_asp v_own]. rewrite PA. split; trivial. now apply PO.
  - destruct (v_init v); [injection S as <- <-; now split|]. destruct (memb k' (v_st v)); injection S as <- <-; [now split|].
    cbn [v_asp v_own]. rewrite PA. split; trivial. now apply PO.
  - destruct (memb e' all); [|injection S as <- <-; now split]. destruct (v_init v); [injection S as <- <-; now split|].
    destruct (v_ref v r); injection S as <- <-; [|now split]. cbn [v_asp v_own]. rewrite PA. split; trivial. now apply PO.
  - now injection S as <- <-.
  - now injection S as <- <-.
  - now injection S as <- <-.
  - now injection S as <- <-.
  - now elim N.
Qed.
Lemma v_asp_run cl all e k : forall h v v1 l, v_run cl all v h = Some (v1, l) -> (forall op, In op h -> ~ touches e k op) -> k < v_asp v e ->
  k < v_asp v1 e /\ v_own v1 (WAsp e k) = v_own v (WAsp e k).
Proof.
  induction h as [|op h IH]; cbn [v_run]; intros v v1 l S N L.
  - now injection S as <- <-.
  - destruct (v_step cl all v op) as [[v2 a]|] eqn:E; [|discriminate]. destruct (v_run cl all v2 h) as [[v3 l3]|] eqn:E2; [|discriminate]. injection S as <- <-.
    destruct (v_asp_mono cl all e k v op v2 a E (N op (or_introl eq_refl)) L) as [L2 O2].
    destruct (IH v2 v3 l3 E2 (fun o H => N o (or_intror H)) L2) as [L3 O3]. split; trivial. congruence.
Qed.

(** The aspect keeps what clone made of the object when it was passed, whatever is done afterwards to that object and to all others: it may
    be written, deleted, passed on; only the aspect's own parameter being written or replaced, or the aspect being removed, counts. *)
Theorem C105_copy_partial : forall cl all h1 h2 e T r s1 l1 ty x s2 l2,
  (forall op, In op (h1 ++ h2) -> ~ to_itself op) ->
  In e all ->
  d_run cl all d_new h1 = Some (s1, l1) ->
  d_look s1 (deref s1 r) = Some (AVal ty x) ->
  (forall op, In op h2 -> ~ touches e (d_asp s1 e) op) ->
  d_run cl all s1 (DAspect e T r :: h2) = Some (s2, l2) ->
  d_step cl all s2 (DSee (WAsp e (d_asp s1 e))) = Some (s2, AVal T (cl T ty x)).
Proof.
  intros cl all h1 h2 e T r s1 l1 ty x s2 l2 N He R1 Lk Nt R2.
  pose proof (run_R cl all h1 d_new v_new (R_new all) (fun op H => N op (in_or_app _ _ _ (or_introl H)))) as H1.
  destruct (v_run cl all v_new h1) as [[v1 l1']|]; [|congruence]. destruct H1 as (s1' & E1 & I1 & _). rewrite R1 in E1. injection E1 as <- <-.
  assert (N2 : forall op, In op (DAspect e T r :: h2) -> ~ to_itself op).
  { intros op [<-|H]; [now intros F|apply N, in_or_app; now right]. }
  pose proof (run_R cl all _ s1 v1 I1 N2) as H2. destruct (v_run cl all v1 (DAspect e T r :: h2)) as [[v2 l2']|] eqn:V2; [|congruence].
  destruct H2 as (s2' & E2 & I2 & _). rewrite R2 in E2. injection E2 as <- <-.
  cbn [v_run v_step] in V2. rewrite (proj2 (memb_in e all) He) in V2.
  destruct (v_run cl all (v_aspect cl v1 e T r) h2) as [[v3 l3]|] eqn:V3; [|discriminate]. injection V2 as <- <-.
  set (k := d_asp s1 e) in *. destruct I1 as [I1 Kn1].
  assert (VR : v_ref v1 r = Some (ty, x)).
  { pose proof (val_some s1 v1 r I1) as Hv. unfold d_look in Lk. destruct (deref s1 r) as [o|]; [|discriminate]. destruct Hv as [Hv _].
    rewrite <- Hv. destruct (d_heap s1 o) as [[? ?]|]; [|discriminate]. now injection Lk as -> ->. }
  assert (A1 : v_asp (v_aspect cl v1 e T r) e = S k).
  { unfold v_aspect, v_pass. rewrite VR. cbn [v_with v_asp]. rewrite upd_same. f_equal. apply I1. }
  assert (O1 : v_own (v_aspect cl v1 e T r) (WAsp e k) = Some (T, cl T ty x)).
  { unfold v_aspect, v_pass. rewrite VR. cbn [v_with v_own]. rewrite (r_asp _ _ I1 e). apply updw_same. }
  destruct (v_asp_run cl all e k h2 _ v3 l3 V3 Nt) as [L3 O3]; [lia|].
  pose proof (step_R cl all s2 v3 (DSee (WAsp e k)) I2 (fun F => F)) as St. cbn [v_step v_there] in St.
  rewrite (proj2 (Nat.ltb_lt _ _) L3), O3, O1 in St. destruct St as (s3 & E3 & _). cbn [v_seen] in E3. rewrite E3. f_equal. f_equal.
  cbn [d_step] in E3. destruct (there s2 (WAsp e k)); [|now injection E3]. destruct (d_look s2 (d_own s2 (WAsp e k))); [|discriminate]. now injection E3.
Qed.

(** When the pipeline is deleted, nothing of what the library made is left, provided that no stage was added with a key in use. *)
Theorem C105_released_partial : forall cl all h s l,
  (forall op, In op h -> ~ to_itself op) -> stage_keys_fresh [] h ->
  d_run cl all d_new (h ++ [DEnd]) = Some (s, l) -> forall o, ~ library_object s o.
Proof.
  intros cl all h s l N F Rn o [Ho Hv].
  assert (N' : forall op, In op (h ++ [DEnd]) -> ~ to_itself op).
  { intros op H. apply in_app_or in H as [H|[<-|[]]]; [now apply N|now intros G]. }
  assert (F' : stage_keys_fresh (rev (d_st d_new)) (h ++ [DEnd])).
  { cbn. clear - F. revert F. generalize (@nil nat). induction h as [|op h IH]; intros q F; [exact Logic.I|].
    destruct op; cbn [app stage_keys_fresh] in *; try (now apply IH). split; [apply F|]. now apply IH. }
  pose proof (run_R cl all _ d_new v_new (R_new all) N') as H. destruct (v_run cl all v_new (h ++ [DEnd])) as [[v lv]|] eqn:V; [|congruence].
  destruct H as (s' & E & [I Kn] & L). rewrite Rn in E. injection E as <- <-. specialize (L eq_refl F').
  destruct (k_live _ _ _ (r_k _ _ I) o Ho) as ([n|w|q] & P); cbn [pt] in P.
  - now apply (Hv n).
  - assert (G : v_own v w = None).
    { clear - V. revert V. generalize v_new. revert l. induction h as [|op h IH]; intros lv v0; cbn [app v_run].
      - cbn [v_step]. intros V. now injection V as <- <-.
      - destruct (v_step cl all v0 op) as [[v1 a]|]; [|discriminate]. destruct (v_run cl all v1 (h ++ [DEnd])) as [[v2 l2]|] eqn:E; [|discriminate].
        intros V. injection V as <- <-. now apply (IH _ _ E). }
    rewrite (r_own _ _ I w) in G. unfold val in G. cbn [pt] in G. rewrite P in G. congruence.
  - rewrite L in P. discriminate.
Qed.

(** It is false that a parameter may be passed to whom it belongs: whatever happened before, an aspect that calls setAParam with its own
    parameter, a daemon that calls setDParam with the one it is given, and addEParam with what getEParam answered read a deleted object. *)
Theorem C105_itself_refuted : forall cl all h s l op w,
  d_run cl all d_new h = Some (s, l) ->
  there s w = true -> d_own s w <> None -> d_init s = false ->
  match w with
  | WAsp e k => exists T, op = DSetA e k T (RHold w)
  | WDae k => exists T, op = DSetD k T (RHold w)
  | WLoc e k => In e all /\ exists T, op = DLocal e k T (RHold w)
  | _ => False
  end ->
  d_step cl all s op = None.
Proof.
  intros cl all h s l op w _ Th Ow In0 Op.
  assert (G : forall T, d_set cl s w T (RHold w) = None).
  { intros T. unfold d_set. cbn [deref]. destruct (d_own s w) as [o|] eqn:O; [|now elim Ow]. unfold d_release. rewrite O. unfold h_del.
    destruct (d_heap s o); trivial. unfold d_clone. cbn [set_own set_heap d_heap]. now rewrite upd_same. }
  destruct w as [e k|k|k|k|e k]; try contradiction.
  - destruct Op as (T & ->). cbn [d_step]. now rewrite Th, G.
  - destruct Op as (T & ->). cbn [d_step]. now rewrite Th, G.
  - destruct Op as (He & T & ->). cbn [d_step]. rewrite (proj2 (memb_in e all) He). unfold d_local. rewrite In0. cbn [deref].
    destruct (d_own s (WLoc e k)); [|now elim Ow]. now rewrite G.
Qed.

(** It is false that everything is released: a stage added with a key in use takes its parameter with it into oblivion. *)
Theorem C105_stage_refuted : forall cl all, exists h s l o,
  (forall op, In op h -> ~ to_itself op) /\ d_run cl all d_new (h ++ [DEnd]) = Some (s, l) /\ library_object s o.
Proof.
  intros cl all. exists [DVar 0 5 7; DStage 3 5 (RVar 0); DStage 3 5 (RVar 0)].
  assert (CE : forall q : list nat, concat (map (fun _ => @nil who) q) = []) by (induction q; trivial).
  eexists _, _, 2. split; [intros op [<-|[<-|[<-|[]]]]; now intros F|].
  split; [cbn; unfold d_all; cbn; rewrite CE; cbn; reflexivity|]. split; [discriminate|]. intros n. cbn. unfold upd. destruct (Nat.eqb n 0); discriminate.
Qed.

(** A clone method that copies the value; two elements and a run in which an object is passed to both, then changed and deleted *)
Example C105_nonvacuous :
  option_map snd (d_run (fun _ _ v => v) [1; 2] d_new
    [DVar 0 5 7; DAspects [] 5 (RVar 0); DDaemon 5 (RVar 0); DLocal 1 3 5 (RVar 0); DWrite (RVar 0) 8; DWrite (RHold (WAsp 1 0)) 9;
     DSetA 2 0 5 (RVar 0); DDel 0; DGetA 1 0 5; DGetA 2 0 5; DGetA 2 0 6; DSee (WDae 0); DGetE 1 3 5; DSetD 0 5 (RHold (WAsp 1 0)); DSee (WDae 0);
     DEnd])
  = Some [ADone; ADone; ADone; ADone; ADone; ADone; ADone; ADone; AVal 5 9; AVal 5 8; ANull; AVal 5 7; AVal 5 7; ADone; AVal 5 9; ADone]
  /\ d_run (fun _ _ v => v) [1; 2] d_new [DVar 0 5 7; DAspect 1 5 (RVar 0); DSetA 1 0 5 (RHold (WAsp 1 0))] = None.
Proof. vm_compute. split; reflexivity. Qed.

Print Assumptions C105_values_partial.
Print Assumptions C105_copy_partial.
Print Assumptions C105_released_partial.
Print Assumptions C105_itself_refuted.
Print Assumptions C105_stage_refuted.
