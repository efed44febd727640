(** Property theorems on the pipeline manager. *)
From Verif Require Import PmSpec.
From Coq Require Import Lia.
Local Open Scope nat_scope.
Local Open Scope list_scope.

Lemma in_lremove p q l : In p (lremove q l) <-> In p l /\ p <> q.
Proof. unfold lremove. rewrite filter_In. destruct (Nat.eqb_spec p q); cbn; intuition congruence. Qed.
Lemma lremove_nodup q l : NoDup l -> NoDup (lremove q l).
Proof. apply NoDup_filter. Qed.
Record pminv (h : list (pop * pans)) (s : pman) : Prop := mk_pmi
  { pi_nodup : NoDup (pm_free s ++ pm_used s);
    pi_out : forall p, out h p = true <-> In p (pm_used s);
    pi_mem : forall p, member h p = true <-> In p (pm_free s) \/ In p (pm_used s);
    pi_run : forall u, running h u = pm_run s u;
    pi_init : ready h = pm_init s }.
Lemma pi_out_f h s p : pminv h s -> out h p = false <-> ~ In p (pm_used s).
Proof. intros I. rewrite <- (pi_out _ _ I). destruct (out h p); intuition congruence. Qed.
Lemma out_bool (b : bool) P Q : (b = true <-> P) -> (P <-> Q) -> (b = true <-> Q).
Proof. tauto. Qed.
Lemma fetch_inv h s o : pminv h s -> (o = GFetch \/ exists u, o = GRunBegin u) ->
  match pm_free s with
  | [] => True
  | p :: r => NoDup (r ++ (pm_used s ++ [p])) /\ out h p = false /\ member h p = true /\
              (forall q, out ((o, GPipe (Some p)) :: h) q = true <-> In q (pm_used s ++ [p])) /\
              (forall q, member ((o, GPipe (Some p)) :: h) q = true <-> In q r \/ In q (pm_used s ++ [p]))
  end.
Proof.
  intros I Ho. destruct (pm_free s) as [|p r] eqn:Ef; [easy|]. pose proof (pi_nodup _ _ I) as Hn. rewrite Ef in Hn.
  assert (Hp : ~ In p (pm_used s)). { inversion Hn; subst. intros Hi. apply H1. apply in_app_iff. now right. }
  split; [|split; [|split; [|split]]].
  - rewrite app_assoc. apply (NoDup_Add (a := p) (l := r ++ pm_used s)); [|now inversion Hn].
    pose proof (Add_app p (r ++ pm_used s) []) as A. now rewrite app_nil_r in A.
  - now apply (pi_out_f h s p I).
  - apply (pi_mem _ _ I). left. rewrite Ef. now left.
  - intros q. assert (E : out ((o, GPipe (Some p)) :: h) q = Nat.eqb q p || out h q) by (destruct Ho as [->|[u ->]]; reflexivity).
    rewrite E, Bool.orb_true_iff, Nat.eqb_eq, (pi_out _ _ I), in_app_iff. cbn. intuition congruence.
  - intros q. assert (E : member ((o, GPipe (Some p)) :: h) q = member h q) by (destruct Ho as [->|[u ->]]; reflexivity).
    rewrite E, (pi_mem _ _ I), Ef, in_app_iff. cbn. intuition congruence.
Qed.
Lemma release_inv h s p : pminv h s ->
  (In p (pm_used s) -> NoDup ((p :: pm_free s) ++ lremove p (pm_used s))) /\
  (forall q, In q (lremove p (pm_used s)) <-> negb (Nat.eqb q p) && out h q = true) /\
  (In p (pm_used s) -> forall q, (In q (p :: pm_free s) \/ In q (lremove p (pm_used s))) <-> member h q = true).
Proof.
  intros I. pose proof (pi_nodup _ _ I) as Hn. apply NoDup_app_iff in Hn. destruct Hn as [N1 [N2 N3]]. split; [|split].
  - intros Hi. cbn. constructor.
    + rewrite in_app_iff, in_lremove. intros [H|H]; [|tauto]. now apply (N3 p).
    + apply NoDup_app_iff. split; [easy|]. split; [now apply lremove_nodup|]. intros x Hx Hy. apply in_lremove in Hy. now apply (N3 x).
  - intros q. rewrite in_lremove, Bool.andb_true_iff, (pi_out _ _ I). destruct (Nat.eqb_spec q p); cbn; intuition congruence.
  - intros Hi q. rewrite (pi_mem _ _ I), in_lremove. cbn. destruct (Nat.eq_dec q p); intuition congruence.
Qed.
Ltac same I := destruct I as [I1 I2 I3 I4 I5]; constructor; cbn [pm_free pm_used pm_run pm_init set_lists out member running ready]; easy.
Lemma pm_step_inv h s o s' a : pminv h s -> distinct ((o, a) :: h) -> pm_step s o = Some (s', a) -> pminv ((o, a) :: h) s'.
Proof.
  intros I Hd E. destruct o as [p|p| | |p|p| |ok|ok|u|u ok]; cbn [pm_step] in E.
  - destruct (pm_init s) eqn:Ei; injection E as <- <-; [same I|]. cbn in Hd. destruct Hd as [Hm _]. destruct I as [I1 I2 I3 I4 I5].
    assert (Hn : ~ (In p (pm_free s) \/ In p (pm_used s))) by (rewrite <- I3; congruence).
    constructor; cbn [pm_free pm_used pm_run pm_init set_lists out member running ready]; try easy.
    + rewrite <- app_assoc. cbn. apply (NoDup_Add (a := p) (l := pm_free s ++ pm_used s)); [apply Add_app|]. rewrite in_app_iff. easy.
    + intros q. rewrite Bool.orb_true_iff, Nat.eqb_eq, I3, in_app_iff. cbn. intuition congruence.
  - destruct (pm_init s) eqn:Ei; injection E as <- <-; [same I|]. pose proof I as [I1 I2 I3 I4 I5]. apply NoDup_app_iff in I1. destruct I1 as [N1 [N2 N3]].
    constructor; cbn [pm_free pm_used pm_run pm_init set_lists out member running ready]; try easy.
    + apply NoDup_app_iff. split; [now apply lremove_nodup|]. split; [easy|]. intros x Hx. apply in_lremove in Hx. now apply N3.
    + intros q. rewrite in_lremove. destruct (Nat.eqb_spec q p) as [->|]; [rewrite I2; tauto|]. rewrite I3. tauto.
  - destruct (pm_init s) eqn:Ei; injection E as <- <-; [same I|]. destruct I as [I1 I2 I3 I4 I5].
    constructor; cbn; try easy. + constructor. + intros p. split; [discriminate|tauto].
  - unfold pm_fetch in E. pose proof (fetch_inv h s GFetch I (or_introl eq_refl)) as HF. destruct (pm_free s) as [|p r] eqn:Ef; injection E as <- <-; [same I|].
    destruct HF as [F1 [_ [_ [F4 F5]]]]. destruct I as [I1 I2 I3 I4 I5]. constructor; cbn [pm_free pm_used pm_run pm_init set_lists]; easy.
  - unfold pm_release in E. destruct (release_inv h s p I) as [R1 [R2 R3]]. destruct (memb p (pm_used s)) eqn:Em; injection E as <- <-; [|same I].
    apply memb_in in Em. specialize (R1 Em). specialize (R3 Em). destruct I as [I1 I2 I3 I4 I5].
    constructor; cbn [pm_free pm_used pm_run pm_init set_lists out member running ready]; try easy.
  - injection E as <- <-. same I.
  - injection E as <- <-. same I.
  - destruct (pm_init s) eqn:Ei.
    { injection E as <- <-. destruct I as [I1 I2 I3 I4 I5]. constructor; cbn; easy. }
    destruct (pm_used s) eqn:Eu.
    2:{ injection E as <- <-. destruct I as [I1 I2 I3 I4 I5]. constructor; cbn; easy. }
    destruct (init_loop ok (pm_free s) (pm_pinit s) true) as [f [b|]]; injection E as <- <-; destruct I as [I1 I2 I3 I4 I5]; rewrite Eu in *; constructor; cbn [pm_free pm_used pm_run pm_init out member running ready]; try easy;
      rewrite ?Eu; try easy; try (destruct b; cbn; try easy; congruence); congruence.
  - destruct (pm_init s) eqn:Ei; cbn [negb] in E.
    2:{ injection E as <- <-. destruct I as [I1 I2 I3 I4 I5]. constructor; cbn; easy. }
    destruct (pm_used s) eqn:Eu.
    2:{ injection E as <- <-. destruct I as [I1 I2 I3 I4 I5]. constructor; cbn; easy. }
    destruct (destroy_loop ok (pm_free s) (pm_pinit s) true) as [f [b|]]; injection E as <- <-; destruct I as [I1 I2 I3 I4 I5]; rewrite Eu in *; constructor; cbn [pm_free pm_used pm_run pm_init out member running ready]; try easy;
      rewrite ?Eu; try easy; try (destruct b; cbn; try easy; congruence); congruence.
  - destruct (pm_run s u) eqn:Er; [discriminate|]. destruct (pm_init s) eqn:Ei; cbn [negb] in E.
    2:{ injection E as <- <-. destruct I as [I1 I2 I3 I4 I5]. constructor; cbn; easy. }
    unfold pm_fetch in E. pose proof (fetch_inv h s (GRunBegin u) I (or_intror (ex_intro _ u eq_refl))) as HF. destruct (pm_free s) as [|p r] eqn:Ef; cbn in E; injection E as <- <-.
    { destruct I as [I1 I2 I3 I4 I5]. constructor; cbn; easy. }
    destruct HF as [F1 [_ [_ [F4 F5]]]]. destruct I as [I1 I2 I3 I4 I5]. constructor; cbn [pm_free pm_used pm_run pm_init set_lists]; try easy.
    intros v. cbn [running]. unfold upd. destruct (Nat.eqb v u); [easy|apply I4].
  - destruct (pm_run s u) as [p|] eqn:Er; [|discriminate]. unfold pm_release in E. destruct (release_inv h s p I) as [R1 [R2 R3]].
    assert (Hr : running h u = Some p) by (rewrite (pi_run _ _ I); easy).
    destruct (memb p (pm_used s)) eqn:Em; cbn in E; injection E as <- <-.
    + apply memb_in in Em. specialize (R1 Em). specialize (R3 Em). destruct I as [I1 I2 I3 I4 I5].
      constructor; cbn [pm_free pm_used pm_run pm_init set_lists out member running ready]; try easy.
      * intros q. rewrite Hr. symmetry. apply R2.
      * intros v. unfold upd. destruct (Nat.eqb v u); [easy|apply I4].
    + apply memb_false in Em. destruct I as [I1 I2 I3 I4 I5].
      constructor; cbn [pm_free pm_used pm_run pm_init set_lists out member running ready]; try easy.
      * intros q. rewrite Hr. rewrite <- R2, in_lremove. split; [tauto|]. intros Hq. split; [easy|]. intros ->. contradiction.
      * intros v. unfold upd. destruct (Nat.eqb v u); [easy|apply I4].
Qed.
Lemma distinct_tl e h : distinct (e :: h) -> distinct h.
Proof. destruct e as [[] []]; cbn; tauto. Qed.
Lemma pminv_all : forall h, pm_valid h -> distinct h -> exists s, pm_after h = Some s /\ pminv h s.
Proof.
  induction h as [|[o a] r IH]; intros Hv Hd; cbn [pm_after].
  - exists pm_new. split; [easy|]. constructor; cbn; try easy. + constructor. + intros p. split; [discriminate|tauto].
  - destruct Hv as [Hv Hs]. destruct (IH Hv (distinct_tl _ _ Hd)) as [s [E I]]. rewrite E in *. destruct Hs as [s' Hs]. rewrite Hs. exists s'. split; [easy|].
    now apply (pm_step_inv r s o s' a).
Qed.

(** C33: after every history of calls (answers as given, pipelines added once) fetch gives a member that is not handed out, and
    nothing exactly when every member is handed out; release succeeds exactly for pipelines handed out; find and getSize count
    every member once, handed out or not. *)
Theorem C33_answers : forall h, pm_valid h -> distinct h ->
  (forall p, pm_valid ((GFetch, GPipe (Some p)) :: h) -> member h p = true /\ out h p = false) /\
  (pm_valid ((GFetch, GPipe None) :: h) -> forall p, member h p = true -> out h p = true) /\
  (forall p, pm_valid ((GRelease p, GOk) :: h) -> out h p = true) /\
  (forall p a, pm_valid ((GRelease p, a) :: h) -> a <> GOk -> a = GErr /\ out h p = false) /\
  (forall p b, pm_valid ((GFind p, GBool b) :: h) -> b = member h p) /\
  (forall n, pm_valid ((GSize, GNum n) :: h) -> exists l, NoDup l /\ length l = n /\ forall p, In p l <-> member h p = true) /\
  (forall p, out h p = true -> member h p = true).
Proof.
  intros h Hv Hd. destruct (pminv_all h Hv Hd) as [s [E I]]. cbn [pm_valid]. rewrite E. split; [|split; [|split; [|split; [|split; [|split]]]]].
  - intros p [_ [s' Hs]]. cbn in Hs. unfold pm_fetch in Hs. pose proof (fetch_inv h s GFetch I (or_introl eq_refl)) as HF. destruct (pm_free s); [discriminate|]. injection Hs as _ <-. tauto.
  - intros [_ [s' Hs]] p. cbn in Hs. unfold pm_fetch in Hs. rewrite (pi_mem _ _ I), (pi_out _ _ I). destruct (pm_free s); [|discriminate]. cbn. tauto.
  - intros p [_ [s' Hs]]. cbn in Hs. unfold pm_release in Hs. destruct (memb p (pm_used s)) eqn:Em; [|discriminate]. apply memb_in in Em. now apply (pi_out _ _ I).
  - intros p a [_ [s' Hs]] Ha. cbn in Hs. unfold pm_release in Hs. destruct (memb p (pm_used s)) eqn:Em; injection Hs as _ <-; [easy|]. split; [easy|].
    apply memb_false in Em. now apply (pi_out_f h s p I).
  - intros p b [_ [s' Hs]]. cbn in Hs. injection Hs as _ <-. apply Bool.eq_true_iff_eq. rewrite Bool.orb_true_iff, !memb_in, (pi_mem _ _ I). tauto.
  - intros n [_ [s' Hs]]. cbn in Hs. injection Hs as _ <-. exists (pm_free s ++ pm_used s). split; [apply I|]. split; [apply app_length|].
    intros p. rewrite in_app_iff. symmetry. apply (pi_mem _ _ I).
  - intros p. rewrite (pi_out _ _ I), (pi_mem _ _ I). tauto.
Qed.
(** Every call is answered: fetch and release never throw; add, remove, clear throw exactly when the manager is initialised; run
    throws exactly when it is not, and reports an error exactly when nothing is free. *)
Theorem C33_total : forall h, pm_valid h -> distinct h ->
  (exists p, pm_valid ((GFetch, GPipe p) :: h)) /\
  (forall p, pm_valid ((GRelease p, if out h p then GOk else GErr) :: h)) /\
  (forall o, (exists p, o = GAdd p \/ o = GRemove p \/ o = GClear) -> pm_valid ((o, if ready h then GThrow else GOk) :: h)) /\
  (forall u, running h u = None -> ready h = false -> pm_valid ((GRunBegin u, GThrow) :: h)) /\
  (forall u, running h u = None -> ready h = true -> (forall p, member h p = true -> out h p = true) -> pm_valid ((GRunBegin u, GErr) :: h)) /\
  (forall u p, running h u = None -> ready h = true -> member h p = true -> out h p = false -> exists q, pm_valid ((GRunBegin u, GPipe (Some q)) :: h)).
Proof.
  intros h Hv Hd. destruct (pminv_all h Hv Hd) as [s [E I]]. cbn [pm_valid]. rewrite E. split; [|split; [|split; [|split; [|split]]]].
  - cbn. destruct (pm_fetch s) as [s' p]. exists p. split; [easy|]. now exists s'.
  - intros p. split; [easy|]. cbn. unfold pm_release. destruct (out h p) eqn:Eo.
    + apply (pi_out _ _ I) in Eo. apply memb_in in Eo. rewrite Eo. now eexists.
    + apply (pi_out_f h s p I) in Eo. apply memb_false in Eo. rewrite Eo. now eexists.
  - intros o [p Ho]. split; [easy|]. rewrite (pi_init _ _ I). destruct Ho as [->|[->| ->]]; cbn; destruct (pm_init s); now eexists.
  - intros u Hr Hi. split; [easy|]. rewrite (pi_init _ _ I) in Hi. rewrite (pi_run _ _ I) in Hr. cbn. rewrite Hr, Hi. now eexists.
  - intros u Hr Hi Ha. split; [easy|]. rewrite (pi_init _ _ I) in Hi. rewrite (pi_run _ _ I) in Hr. cbn. rewrite Hr, Hi. unfold pm_fetch.
    destruct (pm_free s) as [|p r] eqn:Ef; [now eexists|]. exfalso. assert (Hm : member h p = true) by (apply (pi_mem _ _ I); left; rewrite Ef; now left).
    apply Ha, (pi_out _ _ I) in Hm. pose proof (pi_nodup _ _ I) as Hn. rewrite Ef in Hn. inversion Hn; subst. apply H1. apply in_app_iff. now right.
  - intros u p Hr Hi Hm Ho. rewrite (pi_init _ _ I) in Hi. rewrite (pi_run _ _ I) in Hr. cbn. rewrite Hr, Hi. unfold pm_fetch.
    apply (pi_mem _ _ I) in Hm. apply (pi_out_f h s p I) in Ho. destruct (pm_free s) as [|q r]; [cbn in Hm; tauto|]. exists q. split; [easy|]. now eexists.
Qed.
(** Two threads inside run() never run the same pipeline, and a pipeline being run is not handed out again, as long as nobody
    releases a pipeline that run() uses. *)
Theorem C33_exclusive : forall h, pm_valid h -> distinct h -> owned h ->
  (forall u v p, running h u = Some p -> running h v = Some p -> u = v) /\ (forall u p, running h u = Some p -> out h p = true).
Proof.
  induction h as [|[o a] r IH]; intros Hv Hd Ho; [easy|].
  assert (Ho' : owned r) by (destruct o; cbn in Ho; tauto). destruct (IH (proj1 Hv) (distinct_tl _ _ Hd) Ho') as [A B].
  destruct (pminv_all r (proj1 Hv) (distinct_tl _ _ Hd)) as [s [E I]].
  destruct Hv as [Hv Hs]. rewrite E in Hs. destruct Hs as [s' Hs].
  destruct o as [p|p| | |p|p| |ok|ok|u|u ok]; cbn [pm_step] in Hs.
  - destruct (pm_init s); injection Hs as _ <-; easy.
  - destruct (pm_init s); injection Hs as _ <-; easy.
  - cbn in Ho. destruct Ho as [Ho _]. destruct (pm_init s); injection Hs as _ <-; cbn; [easy|]. split; [easy|]. intros u p. rewrite Ho. discriminate.
  - destruct (pm_fetch s) as [s1 [p|]]; injection Hs as _ <-; cbn; [|easy]. split; [easy|]. intros u q Hq. apply Bool.orb_true_iff. right. now apply (B u).
  - cbn in Ho. destruct Ho as [Ho _]. destruct (pm_release p s) as [s1 [|]]; injection Hs as _ <-; cbn; [|easy]. split; [easy|]. intros u q Hq. rewrite (B u q Hq).
    destruct (Nat.eqb_spec q p) as [->|]; [|easy]. now apply Ho in Hq.
  - injection Hs as _ <-. easy.
  - injection Hs as _ <-. easy.
  - easy.
  - easy.
  - destruct (pm_run s u) eqn:Er; [discriminate|]. destruct (pm_init s); cbn [negb] in Hs; [|injection Hs as _ <-; easy].
    pose proof (fetch_inv r s (GRunBegin u) I (or_intror (ex_intro _ u eq_refl))) as HF. unfold pm_fetch in Hs. destruct (pm_free s) as [|p fr]; injection Hs as _ <-; [easy|].
    destruct HF as [_ [F2 _]]. cbn [running out]. split.
    + intros v w q. destruct (Nat.eqb_spec v u) as [->|], (Nat.eqb_spec w u) as [->|]; try easy.
      * intros H1 H2. injection H1 as <-. apply B in H2. congruence.
      * intros H1 H2. injection H2 as <-. apply B in H1. congruence.
      * apply A.
    + intros v q. destruct (Nat.eqb v u).
      * intros H1. injection H1 as <-. now rewrite Nat.eqb_refl.
      * intros H1. rewrite (B v q H1). apply Bool.orb_true_r.
  - destruct (pm_run s u) as [p|] eqn:Er; [|discriminate]. assert (Hr : running r u = Some p) by (now rewrite (pi_run _ _ I)). cbn [running out]. rewrite Hr. split.
    + intros v w q. destruct (Nat.eqb v u), (Nat.eqb w u); try easy. apply A.
    + intros v q. destruct (Nat.eqb_spec v u) as [->|Hne]; [discriminate|]. intros Hq. rewrite (B v q Hq).
      destruct (Nat.eqb_spec q p) as [->|]; [|easy]. exfalso. apply Hne. now apply (A v u p).
Qed.
Definition pm_h : list (pop * pans) :=
  [(GRunBegin 5, GPipe (Some 2)); (GRunBegin 4, GPipe (Some 1)); (GInit (fun _ => true), GOk); (GAdd 3, GOk); (GAdd 2, GOk); (GAdd 1, GOk)].
Example C33_case : pm_valid pm_h /\ distinct pm_h /\ owned pm_h /\ out pm_h 1 = true /\ member pm_h 3 = true /\ out pm_h 3 = false /\
  pm_valid ((GFetch, GPipe (Some 1)) :: (GRunEnd 4 true, GOk) :: pm_h) /\ pm_valid ((GRunBegin 7, GErr) :: (GFetch, GPipe (Some 3)) :: pm_h).
Proof. cbn. intuition (try discriminate); eexists; reflexivity. Qed.
Print Assumptions C33_answers. Print Assumptions C33_total. Print Assumptions C33_exclusive.

(** C66, refuted: adding a pipeline twice is accepted, and then two users are handed the same pipeline at the same time; the
    first release also takes it away from the second user, whose own release is refused. *)
Theorem C66_duplicate_refuted : forall p,
  pm_valid [(GFetch, GPipe (Some p)); (GFetch, GPipe (Some p)); (GAdd p, GOk); (GAdd p, GOk)] /\
  pm_valid [(GRelease p, GErr); (GRelease p, GOk); (GFetch, GPipe (Some p)); (GFetch, GPipe (Some p)); (GAdd p, GOk); (GAdd p, GOk)] /\
  pm_valid [(GSize, GNum 1); (GRelease p, GOk); (GFetch, GPipe (Some p)); (GFetch, GPipe (Some p)); (GAdd p, GOk); (GAdd p, GOk)].
Proof.
  intros p. cbn. unfold pm_release. cbn. repeat (rewrite ?Nat.eqb_refl; cbn). do 2 (split; [intuition (eexists; reflexivity)|]). intuition (eexists; reflexivity).
Qed.
(** C66, what holds: a user who asks find first never adds a member. *)
Theorem C66_find_partial : forall h p, pm_valid h -> distinct h -> pm_valid ((GFind p, GBool false) :: h) -> distinct ((GAdd p, GOk) :: (GFind p, GBool false) :: h).
Proof.
  intros h p Hv Hd Hf. destruct (C33_answers h Hv Hd) as [_ [_ [_ [_ [H _]]]]]. cbn. split; [|easy]. symmetry. now apply H.
Qed.
Example C66_case : pm_valid ((GFind 9, GBool false) :: pm_h).
Proof. split; [apply C33_case|]. cbn. now eexists. Qed.
Print Assumptions C66_duplicate_refuted. Print Assumptions C66_find_partial.

(** C67, refuted: when one of several pipelines fails to initialise, the manager stays uninitialised and no later init can
    succeed, whatever the pipelines answer: it throws at the pipeline already initialised; destroy throws too. *)
Theorem C67_retry_refuted : forall p q, p <> q -> forall ok,
  let h := [(GInit (fun x => Nat.eqb x p), GErr); (GAdd q, GOk); (GAdd p, GOk)] in
  pm_valid h /\ pm_valid ((GInit ok, GThrow) :: h) /\ pm_valid ((GDestroy ok, GThrow) :: h) /\ pm_valid ((GDestroy ok, GThrow) :: (GInit ok, GThrow) :: h).
Proof.
  intros p q Hne ok. assert (Hqp : Nat.eqb q p = false) by (apply Nat.eqb_neq; congruence). assert (Hpq : Nat.eqb p q = false) by (now apply Nat.eqb_neq).
  cbn. unfold upd. repeat (rewrite ?Nat.eqb_refl, ?Hqp, ?Hpq; cbn). intuition (eexists; reflexivity).
Qed.
(** C67, what holds: a manager whose pipelines are all not yet initialised, and none handed out, initialises them all, once each,
    and is ready exactly when all answered OK. *)
Theorem C67_init_partial : forall h ok s, pm_valid h -> distinct h -> ready h = false -> (forall p, out h p = false) -> pm_after h = Some s ->
  (forall p, member h p = true -> pm_pinit s p = false) ->
  pm_valid ((GInit ok, if forallb ok (pm_free s) then GOk else GErr) :: h) /\
  (forall s', pm_after ((GInit ok, if forallb ok (pm_free s) then GOk else GErr) :: h) = Some s' ->
     (forall p, member h p = true -> pm_pinit s' p = ok p) /\ (forall p, member h p = false -> pm_pinit s' p = pm_pinit s p)) /\
  (forallb ok (pm_free s) = true <-> forall p, member h p = true -> ok p = true).
Proof.
  intros h ok s Hv Hd Hr Ho E Hp. destruct (pminv_all h Hv Hd) as [s1 [E1 I]]. rewrite E in E1. injection E1 as <-.
  assert (Hu : pm_used s = []). { destruct (pm_used s) as [|x u] eqn:Eu; [easy|]. exfalso. assert (out h x = true) by (apply (pi_out _ _ I); rewrite Eu; now left). now rewrite Ho in H. }
  assert (Hm : forall p, member h p = true <-> In p (pm_free s)) by (intros p; rewrite (pi_mem _ _ I), Hu; cbn; tauto).
  assert (Hi : pm_init s = false) by (now rewrite <- (pi_init _ _ I)).
  assert (HL : forall l f acc, NoDup l -> (forall p, In p l -> f p = false) -> exists f', init_loop ok l f acc = (f', Some (acc && forallb ok l)) /\
            (forall p, In p l -> f' p = ok p) /\ (forall p, ~ In p l -> f' p = f p)).
  { clear. induction l as [|x r IH]; intros f acc Hn Hf; cbn.
    - exists f. rewrite Bool.andb_true_r. easy.
    - inversion Hn; subst. rewrite (Hf x (or_introl eq_refl)). destruct (IH (upd f x (ok x)) (acc && ok x) H2) as [f' [E [F1 F2]]].
      { intros p Hi. rewrite upd_other by (intros ->; contradiction). apply Hf. now right. }
      exists f'. rewrite E, Bool.andb_assoc. split; [easy|]. split.
      + intros p [<-|Hi]; [|now apply F1]. rewrite F2 by easy. now rewrite upd_same.
      + intros p Hi. rewrite F2 by tauto. rewrite upd_other; [easy|]. intros ->. apply Hi. now left. }
  pose proof (pi_nodup _ _ I) as Hn. rewrite Hu, app_nil_r in Hn.
  destruct (HL (pm_free s) (pm_pinit s) true Hn) as [f' [EL [F1 F2]]]; [intros p Hi'; apply Hp; now apply Hm|]. cbn [andb] in EL.
  split; [|split].
  - cbn [pm_valid]. split; [easy|]. rewrite E. cbn [pm_step]. rewrite Hi, Hu, EL. now eexists.
  - cbn [pm_after]. rewrite E. cbn [pm_step]. rewrite Hi, Hu, EL. intros s' Es. injection Es as <-. cbn. split.
    + intros p Hm'. apply F1. now apply Hm.
    + intros p Hm'. apply F2. rewrite <- Hm. congruence.
  - rewrite forallb_forall. split; intros H p Hx; apply H; now apply Hm.
Qed.
Example C67_case : let h := [(GAdd 3, GOk); (GAdd 2, GOk)] in pm_valid h /\ distinct h /\ ready h = false /\ member h 2 = true /\
  exists s, pm_after h = Some s /\ pm_pinit s 2 = false.
Proof. cbn. intuition (eexists; try reflexivity); easy. Qed.
Print Assumptions C67_retry_refuted. Print Assumptions C67_init_partial.

(** C33: run reports OK exactly when its pipeline's run did and the pipeline was still handed out (nobody else released it). *)
Theorem C33_run_end : forall h u ok p, pm_valid h -> distinct h -> running h u = Some p ->
  pm_valid ((GRunEnd u ok, if ok && out h p then GOk else GErr) :: h) /\
  (forall a, pm_valid ((GRunEnd u ok, a) :: h) -> a = if ok && out h p then GOk else GErr).
Proof.
  intros h u ok p Hv Hd Hr. destruct (pminv_all h Hv Hd) as [s [E I]]. rewrite (pi_run _ _ I) in Hr.
  assert (Hm : memb p (pm_used s) = out h p). { apply Bool.eq_true_iff_eq. rewrite memb_in. symmetry. apply (pi_out _ _ I). }
  cbn [pm_valid]. rewrite E. cbn [pm_step]. rewrite Hr. unfold pm_release. rewrite Hm. split.
  - split; [easy|]. destruct (out h p); now eexists.
  - intros a [_ [s' Hs]]. destruct (out h p); now injection Hs as _ <-.
Qed.
Example C33_run_end_case : running pm_h 4 = Some 1 /\ pm_valid ((GRunEnd 4 true, GErr) :: (GRelease 1, GOk) :: pm_h).
Proof. cbn. intuition (try discriminate); eexists; reflexivity. Qed.
(** C67, what holds: destroy of a ready manager with all its pipelines initialised and back destroys each once; when all answer OK
    none is initialised any more, so the manager can be initialised again. *)
Theorem C67_destroy_partial : forall h ok s, pm_valid h -> distinct h -> ready h = true -> (forall p, out h p = false) -> pm_after h = Some s ->
  (forall p, member h p = true -> pm_pinit s p = true) ->
  pm_valid ((GDestroy ok, if forallb ok (pm_free s) then GOk else GErr) :: h) /\
  (forall s', pm_after ((GDestroy ok, if forallb ok (pm_free s) then GOk else GErr) :: h) = Some s' ->
     (forall p, member h p = true -> pm_pinit s' p = negb (ok p)) /\ (forall p, member h p = false -> pm_pinit s' p = pm_pinit s p)) /\
  (forallb ok (pm_free s) = true <-> forall p, member h p = true -> ok p = true).
Proof.
  intros h ok s Hv Hd Hr Ho E Hp. destruct (pminv_all h Hv Hd) as [s1 [E1 I]]. rewrite E in E1. injection E1 as <-.
  assert (Hu : pm_used s = []). { destruct (pm_used s) as [|x u] eqn:Eu; [easy|]. exfalso. assert (out h x = true) by (apply (pi_out _ _ I); rewrite Eu; now left). now rewrite Ho in H. }
  assert (Hm : forall p, member h p = true <-> In p (pm_free s)) by (intros p; rewrite (pi_mem _ _ I), Hu; cbn; tauto).
  assert (Hi : pm_init s = true) by (now rewrite <- (pi_init _ _ I)).
  assert (HL : forall l f acc, NoDup l -> (forall p, In p l -> f p = true) -> exists f', destroy_loop ok l f acc = (f', Some (acc && forallb ok l)) /\
            (forall p, In p l -> f' p = negb (ok p)) /\ (forall p, ~ In p l -> f' p = f p)).
  { clear. induction l as [|x r IH]; intros f acc Hn Hf; cbn.
    - exists f. rewrite Bool.andb_true_r. easy.
    - inversion Hn; subst. rewrite (Hf x (or_introl eq_refl)). destruct (IH (upd f x (negb (ok x))) (acc && ok x) H2) as [f' [E [F1 F2]]].
      { intros p Hi. rewrite upd_other by (intros ->; contradiction). apply Hf. now right. }
      exists f'. rewrite E, Bool.andb_assoc. split; [easy|]. split.
      + intros p [<-|Hi]; [|now apply F1]. rewrite F2 by easy. now rewrite upd_same.
      + intros p Hi. rewrite F2 by tauto. rewrite upd_other; [easy|]. intros ->. apply Hi. now left. }
  pose proof (pi_nodup _ _ I) as Hn. rewrite Hu, app_nil_r in Hn.
  destruct (HL (pm_free s) (pm_pinit s) true Hn) as [f' [EL [F1 F2]]]; [intros p Hi'; apply Hp; now apply Hm|]. cbn [andb] in EL.
  split; [|split].
  - cbn [pm_valid]. split; [easy|]. rewrite E. cbn [pm_step]. rewrite Hi, Hu. cbn [negb]. rewrite EL. now eexists.
  - cbn [pm_after]. rewrite E. cbn [pm_step]. rewrite Hi, Hu. cbn [negb]. rewrite EL. intros s' Es. injection Es as <-. cbn. split.
    + intros p Hm'. apply F1. now apply Hm.
    + intros p Hm'. apply F2. rewrite <- Hm. congruence.
  - rewrite forallb_forall. split; intros H p Hx; apply H; now apply Hm.
Qed.
Example C67_destroy_case : let h := [(GInit (fun _ => true), GOk); (GAdd 3, GOk); (GAdd 2, GOk)] in pm_valid h /\ distinct h /\ ready h = true /\
  (exists s, pm_after h = Some s /\ pm_pinit s 2 = true /\ pm_pinit s 3 = true) /\
  pm_valid ((GInit (fun _ => true), GOk) :: (GDestroy (fun _ => true), GOk) :: h).
Proof. cbn. intuition (try easy); eexists; try reflexivity. repeat split. Qed.
Print Assumptions C33_run_end. Print Assumptions C67_destroy_partial.
