(** Property theorems on loading a stored pipeline into a pipeline. *)
From Verif Require Import StoreProofs StoreProps LoadProofs.
Local Open Scope nat_scope.
Local Open Scope list_scope.

(** What save wrote is read as it was stored. *)
Theorem C112_saved : forall p b, pl_fits p -> save p = LOk b -> holds b (store p).
Proof.
  intros p b F S. assert (S' := S). unfold save in S'. destruct (p_init p) eqn:I; [discriminate|]. destruct (existsb _ (p_els p)) eqn:A; [discriminate|].
  destruct (save_reads p F I A) as (b' & v & W & R & O). rewrite S in W. injection W as <-. now exists v.
Qed.

(** Into a new pipeline: the loading of C39. *)
Theorem C112_new_pipeline : forall reg d1 d2 b,
  match load reg d2 b with
  | LOk q => load_onto reg d2 (new_pipeline d1 d2) b = (LOk tt, q)
  | LErr => fst (load_onto reg d2 (new_pipeline d1 d2) b) = LErr | LThrow => fst (load_onto reg d2 (new_pipeline d1 d2) b) = LThrow | LUndef => fst (load_onto reg d2 (new_pipeline d1 d2) b) = LUndef
  end.
Proof.
  intros reg d1 d2 b. unfold load, load_onto. cbn [new_pipeline p_init p_els p_events p_params p_daemons p_stages p_cfg p_cfg2 p_engine p_shared app]. destruct (u_read ty_pl b (fresh ty_pl)) as [v|]; [|reflexivity]. cbv zeta. set (s := o_pl v).
  assert (A0 := left_elements_agrees reg (ps_els s)). destruct (load_elements reg (ps_els s)) as [h| | |]; cbn [agrees bind] in *; destruct (left_elements reg (ps_els s)) as [r h']; cbn [fst] in A0.
  2-4: subst r; reflexivity.
  injection A0 as -> ->. cbn [and_then]. cbn [p_init p_els p_events p_params p_daemons p_stages p_cfg p_cfg2 p_engine p_shared].
  assert (A1 := until_agrees _ _ (ends_agrees (load_event reg)) (ps_events s) []). assert (A2 := until_agrees _ _ (ends_agrees (load_param reg)) (ps_params s) []).
  assert (A3 := until_agrees _ _ (ends_agrees (load_daemon reg)) (ps_daemons s) []). assert (A4 := until_agrees _ _ (ends_agrees (load_stage reg)) (ps_stages s) []).
  assert (N : forall A B (f : A -> B -> res B), (forall x m, f x m = LErr \/ exists m', f x m = LOk m') -> forall l m, each f l m = LErr \/ exists m', each f l m = LOk m').
  { intros A B f Hf. induction l as [|x l IH]; intros m; [right; now exists m|]. cbn [each]. destruct (Hf x m) as [->|[m' ->]]; [now left|]. apply IH. }
  assert (N1 := N _ _ (load_event reg) (fun x m => ltac:(unfold load_event; destruct (reg (snd x)) as [[]|]; eauto)) (ps_events s) []).
  assert (N2 := N _ _ (load_param reg) (fun x m => ltac:(unfold load_param; destruct (reg (snd x)) as [[]|]; eauto)) (ps_params s) []).
  assert (N3 := N _ _ (load_daemon reg) (fun x m => ltac:(unfold load_daemon; destruct (reg (snd x)) as [[]|]; eauto)) (ps_daemons s) []).
  assert (N4 := N _ _ (load_stage reg) (fun x m => ltac:(unfold load_stage; destruct (reg (snd (snd x))) as [[]|]; eauto)) (ps_stages s) []).
  clear N.
  destruct (until (ends (load_event reg)) (ps_events s) []) as [r1 m1], (until (ends (load_param reg)) (ps_params s) []) as [r2 m2], (until (ends (load_daemon reg)) (ps_daemons s) []) as [r3 m3], (until (ends (load_stage reg)) (ps_stages s) []) as [r4 m4].
  destruct N1 as [E1|[n1 E1]]; rewrite E1 in *; cbn [bind agrees fst] in *; [subst r1; reflexivity|injection A1 as -> ->].
  destruct N2 as [E2|[n2 E2]]; rewrite E2 in *; cbn [bind agrees fst] in *; [subst r2; reflexivity|injection A2 as -> ->].
  destruct N3 as [E3|[n3 E3]]; rewrite E3 in *; cbn [bind agrees fst] in *; [subst r3; reflexivity|injection A3 as -> ->].
  destruct N4 as [E4|[n4 E4]]; rewrite E4 in *; cbn [bind agrees fst] in *; [subst r4; reflexivity|injection A4 as -> ->].
  cbn [plus and_then]. destruct (cfg_check (ps_cfg s)); reflexivity.
Qed.

(** A load that reports success has found every class, of the right kind, every dependency, and a configuration that makes sense. *)
Theorem C112_accepted : forall reg d2 p b s q, Forall is_byte b -> holds b s -> load_onto reg d2 p b = (LOk tt, q) -> acceptable reg s.
Proof.
  intros reg d2 p b s q F H E. destruct (p_init p) eqn:I; [unfold load_onto in E; rewrite I in E; discriminate|].
  assert (E' : fst (load_onto reg d2 p b) = LOk tt) by now rewrite E. apply (load_ok_iff reg d2 p b s I H) in E' as (E1 & E2 & E3 & E4 & E5 & E6). apply elements_ok in E1 as (M1 & M2 & M3 & M4 & M5).
  rewrite Forall_forall in E2, E3, E4, E5. apply (check_read b s F H) in E6. now split.
Qed.

(** Whatever the result: nothing is removed from the pipeline but what has an equal key, and all that is new is named in the file. A configuration comes last, with success only. *)
Theorem C112_extends : forall reg d2 p b s, holds b s -> let (r, q) := load_onto reg d2 p b in extends s p q /\ (r <> LOk tt -> p_cfg q = p_cfg p /\ p_cfg2 q = p_cfg2 p) /\ (r = LOk tt -> p_cfg q = ps_cfg s /\ p_cfg2 q = d2).
Proof.
  intros reg d2 p b s H. destruct (load_onto reg d2 p b) as [r q] eqn:E. destruct (p_init p) eqn:I.
  - unfold load_onto in E. rewrite I in E. injection E as <- <-. split; [|split; [now split|discriminate]]. unfold extends. split; [reflexivity|]. split; [exists []; rewrite app_nil_r; now split|]. do 2 (split; [apply put_refl|]).
    split; [exists 0; cbn; now rewrite app_nil_r|]. split; [apply put_refl|]. now split.
  - rewrite (load_onto_eq reg d2 p b s I H) in E. assert (Fr := from_elements reg (ps_els s)). destruct (left_elements reg (ps_els s)) as [r0 h]. cbn [fst snd] in *.
    assert (D0 : forall m : list (N * str * nat), exists k, m = m ++ map (fun x => (fst x, snd x, 0)) (firstn k (ps_daemons s))) by (intros m; exists 0; cbn; now rewrite app_nil_r).
    assert (X0 : extends s p (mkPl false (p_els p ++ h) (p_events p) (p_params p) (p_daemons p) (p_stages p) (p_cfg p) (p_cfg2 p) (p_engine p) (p_shared p))).
    { unfold extends. cbn [p_init p_els p_events p_params p_daemons p_stages p_engine p_shared]. split; [now symmetry|]. split; [exists h; now split|]. do 2 (split; [apply put_refl|]). split; [apply D0|]. split; [apply put_refl|]. now split. }
    destruct r0 as [[]| | |]; cbn [and_then] in E; try (injection E as <- <-; split; [exact X0|split; [now split|discriminate]]). clear X0. cbv zeta in E. cbn [p_els] in E.
    assert (V1 := put_until _ (fun x => (fst x, (snd x, 0))) (ev_put reg) (ps_events s) (p_events p)). assert (V2 := put_until _ (fun x => (fst x, (snd x, false, 0))) (pa_put reg) (ps_params s) (p_params p)). assert (V4 := put_until _ (fun x => (fst x, (snd x, 0))) (st_put reg) (ps_stages s) (p_stages p)).
    destruct (daemon_until reg (ps_daemons s) (p_daemons p)) as (k & V3 & _).
    destruct (until (ends (load_event reg)) (ps_events s) (p_events p)) as [r1 m1], (until (ends (load_param reg)) (ps_params s) (p_params p)) as [r2 m2], (until (ends (load_daemon reg)) (ps_daemons s) (p_daemons p)) as [r3 m3],
      (until (ends (load_stage reg)) (ps_stages s) (p_stages p)) as [r4 m4]. cbn [fst snd] in *.
    assert (X1 : forall c c2, extends s p (mkPl false (p_els p ++ h) m1 m2 m3 m4 c c2 (p_engine p) (p_shared p))).
    { intros c c2. unfold extends. cbn [p_init p_els p_events p_params p_daemons p_stages p_engine p_shared]. split; [now symmetry|]. split; [exists h; now split|]. split; [exact V1|]. split; [exact V2|]. split; [now exists k|]. split; [exact V4|]. now split. }
    destruct (plus r1 (plus r2 (plus r3 r4))) as [[]| | |]; cbn [and_then] in E; try (injection E as <- <-; split; [apply X1|split; [now split|discriminate]]).
    cbn [p_els p_events p_params p_daemons p_stages] in E. destruct (cfg_check (ps_cfg s)); injection E as <- <-; (split; [apply X1|split; [now split|now split]]).
Qed.

(** On success everything under a key is what the file says; what was there under an equal key is gone. *)
Theorem C112_replaces : forall reg d2 p b s q, holds b s -> load_onto reg d2 p b = (LOk tt, q) ->
  (NoDup (map fst (ps_events s)) -> forall x, In x (ps_events s) -> forall y, fst y = fst x -> (In y (p_events q) <-> y = (fst x, (snd x, 0)))) /\
  (NoDup (map fst (ps_params s)) -> forall x, In x (ps_params s) -> forall y, fst y = fst x -> (In y (p_params q) <-> y = (fst x, (snd x, false, 0)))) /\
  (NoDup (map fst (ps_stages s)) -> forall x, In x (ps_stages s) -> forall y, fst y = fst x -> (In y (p_stages q) <-> y = (fst x, (snd x, 0)))) /\
  p_daemons q = p_daemons p ++ map (fun x => (fst x, snd x, 0)) (ps_daemons s).
Proof.
  intros reg d2 p b s q H E. destruct (p_init p) eqn:I; [unfold load_onto in E; rewrite I in E; discriminate|]. apply (load_ok reg d2 p b s q I H) in E as (_ & E1 & E2 & E3 & E4 & _ & ->). cbn [p_events p_params p_daemons p_stages].
  split; [intros N x Hx y Hy; exact (put_until_ok _ (fun x => (fst x, (snd x, 0))) (ev_put reg) _ _ E1 N x Hx y Hy)|]. split; [intros N x Hx y Hy; exact (put_until_ok _ (fun x => (fst x, (snd x, false, 0))) (pa_put reg) _ _ E2 N x Hx y Hy)|].
  split; [intros N x Hx y Hy; exact (put_until_ok _ (fun x => (fst x, (snd x, 0))) (st_put reg) _ _ E4 N x Hx y Hy)|]. destruct (daemon_until reg (ps_daemons s) (p_daemons p)) as (k & K1 & K2). rewrite K1, (K2 E3), firstn_all. reflexivity.
Qed.

(** Refused before anything is attached: a file that cannot be read, an initialised pipeline, an element whose class is not registered or is of another type. *)
Theorem C112_untouched_partial : forall reg d2 p file s,
  (file = None \/ p_init p = true \/ exists b t, file = Some b /\ holds b s /\ In t (ps_els s) /\ ~ makes reg t) -> exists r, r <> LOk tt /\ load_file reg d2 p file = (r, p).
Proof.
  intros reg d2 p file s [->|[I|(b & t & -> & H & Ht & N)]].
  - exists LErr. now split.
  - destruct file as [b|]; exists LErr; (split; [discriminate|]); cbn; [unfold load_onto; now rewrite I|reflexivity].
  - cbn [load_file]. destruct (p_init p) eqn:I; [exists LErr; unfold load_onto; rewrite I; now split|]. rewrite (load_onto_eq reg d2 p b s I H).
    assert (L : exists r, r <> LOk tt /\ left_elements reg (ps_els s) = (r, [])).
    { unfold left_elements. destruct (each (load1 reg) (ps_els s) []) as [h| | |] eqn:E; [|exists LErr; now split|exists LThrow; now split|exists LUndef; now split].
      exfalso. apply each1 with (l0 := ps_els s) in E as [_ M]; [|easy|now intros x []]. rewrite Forall_forall in M. auto. }
    destruct L as (r & Nr & ->). cbn [fst snd]. rewrite app_nil_r, <- I, same_pl_eta. exists r. split; [exact Nr|]. destruct r as [[]| | |]; [easy|reflexivity..].
Qed.

(** Otherwise the pipeline is not left as it was: of every pipeline with a parameter, load refuses the file (C39), and leaves all its elements, events, daemons and stages. *)
Theorem C112_atomic_refuted : forall reg d1 d2 p, good reg p -> (forall e, In e (p_els p) -> (e_reg e = true <-> e_belong e = None)) -> p_params p <> [] -> reg [] = None ->
  exists b q, save p = LOk b /\ load_onto reg d2 (new_pipeline d1 d2) b = (LErr, q) /\ Forall2 same_el (p_els p) (p_els q) /\
    map (fun x => (fst x, fst (snd x))) (p_events q) = map (fun x => (fst x, fst (snd x))) (p_events p) /\ map fst (p_daemons q) = map fst (p_daemons p) /\
    map (fun x => (fst x, fst (snd x))) (p_stages q) = map (fun x => (fst x, fst (snd x))) (p_stages p) /\ p_params q = [] /\ p_cfg q = d1.
Proof.
  intros reg d1 d2 p G K P R. assert (EL : filter e_repo (p_els p) = p_els p) by (apply filter_all; apply Forall_forall; apply (gp_all _ _ G)).
  destruct (save_reads p (gp_fits _ _ G) (gp_init _ _ G) (no_adapter reg p (gp_els _ _ G))) as (b & v & W & Rd & O). exists b.
  assert (H : holds b (store p)) by now exists v.
  assert (A0 := left_elements_agrees reg (map store_el (p_els p))). rewrite (load_els reg _ (gp_els _ _ G) (gp_links _ _ G)) in A0. cbn [agrees] in A0.
  assert (A1 := until_agrees _ _ (ends_agrees (load_event reg)) (map (fun x => (fst x, fst (snd x))) (p_events p)) []). destruct (gp_events _ _ G) as [V1 V2]. rewrite (load_events reg _ V1 V2) in A1. cbn [agrees] in A1.
  assert (A3 := until_agrees _ _ (ends_agrees (load_daemon reg)) (map fst (p_daemons p)) []). rewrite (load_daemons reg _ (gp_daemons _ _ G)) in A3. cbn [agrees] in A3.
  assert (A4 := until_agrees _ _ (ends_agrees (load_stage reg)) (map (fun x => (fst x, fst (snd x))) (p_stages p)) []). destruct (gp_stages _ _ G) as [S1 S2]. rewrite (load_stages reg _ S1 S2) in A4. cbn [agrees] in A4.
  assert (A2 : until (ends (load_param reg)) (map (fun x : str * (str * bool * nat) => (fst x, [])) (p_params p)) [] = (LErr, [])).
  { destruct (p_params p) as [|x l]; [easy|]. cbn [map until]. unfold ends at 1, load_param at 1. cbn [snd]. now rewrite R. }
  eexists. split; [exact W|]. split.
  - rewrite (load_onto_eq reg d2 (new_pipeline d1 d2) b _ eq_refl H). unfold store. cbn [new_pipeline ps_els ps_events ps_params ps_daemons ps_stages ps_cfg p_els p_events p_params p_daemons p_stages p_cfg p_cfg2 p_engine p_shared app].
    rewrite EL, A0. cbn [fst snd and_then]. cbv zeta. rewrite A1, A2, A3, A4. cbn [fst snd plus and_then]. cbn [p_els]. reflexivity.
  - cbn [p_els p_events p_params p_daemons p_stages p_cfg]. split.
    { assert (Q : forall l, (forall e, In e l -> In e (p_els p)) -> Forall2 same_el l (map (el3 (p_els p)) l)).
      { induction l as [|e l IH]; intros Hl; [constructor|]. cbn [map]. constructor; [|apply IH; intros x Hx; apply Hl; now right].
        assert (He := Hl e (or_introl eq_refl)). unfold same_el, el3. cbn. do 13 (split; [reflexivity|]). split; [|split; [|split]].
        - symmetry. apply filter_all. intros k Hk. apply here_spec. exact (gp_kids _ _ G e k He Hk).
        - unfold blank_a. now rewrite map_map.
        - unfold blank. now rewrite map_map.
        - specialize (K e He). unfold top. destruct (e_belong e); destruct (e_reg e); intuition congruence. }
      apply Q. easy. }
    split; [unfold blank; now rewrite map_map|]. split; [now rewrite map_map|]. split; [unfold blank; now rewrite map_map|]. now split.
Qed.

(** Loading again adds everything again. *)
Theorem C112_twice_refuted : forall reg d2 p b q s, holds b s -> load_onto reg d2 p b = (LOk tt, q) ->
  exists q2 h, load_onto reg d2 q b = (LOk tt, q2) /\ p_els q = p_els p ++ h /\ p_els q2 = p_els p ++ h ++ h /\
    p_daemons q2 = p_daemons p ++ map (fun x => (fst x, snd x, 0)) (ps_daemons s) ++ map (fun x => (fst x, snd x, 0)) (ps_daemons s).
Proof.
  intros reg d2 p b q s H E. destruct (p_init p) eqn:I; [unfold load_onto in E; rewrite I in E; discriminate|]. assert (Iq : p_init q = false) by (apply (load_ok reg d2 p b s q I H) in E as (_ & _ & _ & _ & _ & _ & ->); reflexivity).
  assert (E' : fst (load_onto reg d2 p b) = LOk tt) by now rewrite E. rewrite (load_ok_iff reg d2 p b s I H), <- (load_ok_iff reg d2 q b s Iq H) in E'. destruct (load_onto reg d2 q b) as [r q2] eqn:E2. cbn in E'. subst r.
  exists q2, (snd (left_elements reg (ps_els s))). split; [reflexivity|]. assert (D := C112_replaces reg d2 p b s q H E). assert (D2 := C112_replaces reg d2 q b s q2 H E2). destruct D as (_ & _ & _ & D), D2 as (_ & _ & _ & D2). rewrite D2, D, <- app_assoc.
  apply (load_ok reg d2 q b s q2 Iq H) in E2 as (_ & _ & _ & _ & _ & _ & ->). apply (load_ok reg d2 p b s q I H) in E as (_ & _ & _ & _ & _ & _ & ->). cbn [p_els]. now rewrite <- app_assoc.
Qed.

(** The pipeline of C39 is saved and loaded into itself: success, eight elements, two daemons, the event replaced. *)
Example C112_ex : exists b q, save ex_pl = LOk b /\ Forall is_byte b /\ load_onto ex_reg (500, 1)%N ex_pl b = (LOk tt, q) /\ length (p_els q) = 8 /\ length (p_daemons q) = 2 /\
  p_events q = [([50]%N, ([5]%N, 0))] /\ p_events ex_pl = [([50]%N, ([5]%N, 3))].
Proof.
  eexists _, _. split; [vm_compute; reflexivity|]. split; [|split; [vm_compute; reflexivity|split; [vm_compute; reflexivity|split; [vm_compute; reflexivity|now split]]]].
  apply Forall_forall.
  match goal with |- forall x, In x ?l -> _ => assert (Q : forallb (fun x => (x <? 256)%N) l = true) by (vm_compute; reflexivity); rewrite forallb_forall in Q; intros x Hx; apply N.ltb_lt; now apply Q end.
Qed.
(** With one parameter, refused; the four elements are there. *)
Definition ex_with : pl := mkPl false ex_els (p_events ex_pl) [([60], ([8], true, 5%nat))]%N (p_daemons ex_pl) (p_stages ex_pl) ex_cfg (500, 1)%N 0 false.
Example C112_atomic_ex : good ex_reg ex_with /\ (forall e, In e (p_els ex_with) -> (e_reg e = true <-> e_belong e = None)) /\ p_params ex_with <> [] /\ ex_reg [] = None /\
  exists b q, save ex_with = LOk b /\ load_onto ex_reg (500, 1)%N (new_pipeline ex_cfg (500, 1)%N) b = (LErr, q) /\ length (p_els q) = 4 /\ length (p_daemons q) = 1.
Proof.
  split; [|split; [exact (proj1 (proj2 (proj2 C39_round_trip_ex)))|split; [discriminate|split; [reflexivity|]]]].
  - assert (G := ex_good). destruct G as [G1 G2 G3 G4 G5 G6 G7 G8 G9 (F1 & F2 & F3 & F4 & _)]. split; try assumption. split; [exact F1|]. split; [exact F2|]. split; [exact F3|]. split; [exact F4|]. vm_compute. reflexivity.
  - eexists _, _. split; [vm_compute; reflexivity|]. split; [vm_compute; reflexivity|]. now split.
Qed.
(** Where the class of the nodes is not registered, the pipeline stays as it was; where only that of the stage is not, everything else is there; where that of the aspects is not, the elements that stand alone. *)
Definition without (c : N) (x : str) : option obj := if seqb x [c] then None else ex_reg x.
Example C112_untouched_ex : exists b, save ex_pl = LOk b /\ (exists t, In t (ps_els (store ex_pl)) /\ ~ makes (without 1) t) /\ load_onto (without 1) (500, 1)%N ex_pl b = (LErr, ex_pl) /\
  (exists q, load_onto (without 7) (500, 1)%N (new_pipeline ex_cfg (500, 1)%N) b = (LErr, q) /\ length (p_els q) = 4 /\ length (p_events q) = 1 /\ length (p_daemons q) = 1 /\ p_stages q = []) /\
  (exists q, load_onto (without 3) (500, 1)%N (new_pipeline ex_cfg (500, 1)%N) b = (LErr, q) /\ length (p_els q) = 4 /\ p_events q = []).
Proof.
  eexists. split; [vm_compute; reflexivity|]. split; [|split; [vm_compute; reflexivity|split]].
  - eexists. split; [left; reflexivity|]. intros (t & Q). vm_compute in Q. discriminate.
  - eexists. split; [vm_compute; reflexivity|]. now repeat split.
  - eexists. split; [vm_compute; reflexivity|]. now repeat split.
Qed.
(** Which configurations make sense, in numbers: -1 threads do not. *)
Example C112_cfg_ex : cfg_ok ex_cfg /\ ~ cfg_ok (4294967295%N :: tl ex_cfg).
Proof.
  split.
  - apply cfg_check_iff; reflexivity.
  - rewrite <- cfg_check_iff by reflexivity. vm_compute. discriminate.
Qed.
Print Assumptions C112_saved.
Print Assumptions C112_new_pipeline.
Print Assumptions C112_accepted.
Print Assumptions C112_extends.
Print Assumptions C112_replaces.
Print Assumptions C112_untouched_partial.
Print Assumptions C112_atomic_refuted.
Print Assumptions C112_twice_refuted.
