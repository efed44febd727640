(** Property theorems on saving and loading a pipeline. *)
From Verif Require Import StoreProofs ReflSpec ReflProofs.
Local Open Scope nat_scope.
Local Open Scope list_scope.

Section Ex.
Local Open Scope N_scope.
(** Two nodes in a cluster, the second after the first, and a node after the cluster; an aspect, a passed parameter, an event, a daemon and a stage. *)
Definition ex_reg (c : str) : option obj :=
  match c with [1] => Some (OElement ty_node 0) | [2] => Some (OElement 131073 0) | [3] => Some OAspect | [4] => Some OPassed | [5] => Some OEvent | [6] => Some ODaemon | [7] => Some OStage | [8] => Some OParam | _ => None end.
Definition ex_node (s : N) (b : option str) (deps : list str) (loop tmo : N) (macro : bool) (r : bool) : el :=
  mkEl [s] [1] ty_node [s; s] loop true 4294967295 0 tmo 1 macro b deps [] [([3], 9%nat)] [([s], ([4], 7%nat))] 0 r true.
Definition ex_cfg : list N := [8; 0; 16; 2; 2; 2; 2; 10; 3; 10; 5; 3; 1; 1; 0; 0; 1; 0; 0].
Definition ex_els : list el :=
  [ex_node 20 (Some [30]) [] 1 100 false false; ex_node 21 (Some [30]) [[20]] 3 0 true false;
   mkEl [30] [2] 131073 [30; 30] 2 true 0 1 0 0 false None [] [[20]; [21]] [] [] 0 true true; ex_node 22 None [[30]] 1 0 false true].
Definition ex_pl : pl := mkPl false ex_els [([50], ([5], 3%nat))] [] [(1000, [6], 2%nat)] [([51], (2, [7], 4%nat))] ex_cfg (500, 1) 0 false.
Lemma ex_good : good ex_reg ex_pl.
Proof.
  assert (F : pl_fits ex_pl).
  { split; [|split; [|split; [|split]]].
    - cbn. repeat (apply Forall_cons; [repeat split|]). constructor.
    - constructor; [reflexivity|constructor].
    - constructor; [reflexivity|constructor].
    - repeat (apply Forall2_cons; [reflexivity|]). constructor.
    - vm_compute. reflexivity. }
  split; try exact F; try reflexivity.
  - cbn [p_els ex_pl ex_els]. repeat (apply Forall_cons; [split; cbn; try discriminate; try reflexivity; try (eexists; split; [reflexivity|now left]); try (now left); try (now right); try (repeat constructor)|]). constructor.
  - split.
    + cbn. repeat (constructor; [cbn; intuition discriminate|]). constructor.
    + cbn. intros e g H E. repeat (destruct H as [<-|H]; [cbn in E; try discriminate E; injection E as <-; tauto|]). destruct H.
    + cbn. intros e H. repeat (destruct H as [<-|H]; [cbn; split; [repeat (constructor; [cbn; intuition discriminate|]); constructor|easy]|]). destruct H.
    + cbn. intros e k c H K C E. repeat (destruct H as [<-|H]; [cbn in K; try (now destruct K); repeat (destruct C as [<-|C]; [cbn in E; subst; cbn in K |- *; try (split; [reflexivity|discriminate]); intuition discriminate|]); destruct C|]). destruct H.
    + cbn. intros e H. repeat (destruct H as [<-|H]; [cbn; split; [repeat (constructor; [cbn; intuition discriminate|]); constructor|intuition discriminate]|]). destruct H.
    + cbn. intros e d H D. repeat (destruct H as [<-|H]; [cbn in D; destruct D as [<-|D]; [|now destruct D] || now destruct D|]).
      * eexists. split; [left; reflexivity|]. split; reflexivity.
      * eexists. split; [right; right; left; reflexivity|]. split; reflexivity.
      * destruct H.
  - repeat (apply Forall_cons; [reflexivity|]). constructor.
  - cbn. intros e k H K. repeat (destruct H as [<-|H]; [cbn in K; tauto|]). destruct H.
  - split; repeat constructor. now intros [].
  - repeat constructor.
  - split; repeat constructor. now intros [].
Qed.
End Ex.

(** C39: save, then load in a new pipeline with the same types registered: the same elements with the same settings, groups, dependencies, aspects and passed parameters, and the same events, daemons, stages
    and configuration of the pool. Missing, and refuted below: parameters; data that user classes keep; two fields of the configuration; engines and shared pools; elements that are created and registered
    nowhere; elements with a timeout whose loop is 0; saving what was loaded. *)
Theorem C39_round_trip_partial : forall reg d2 p, good reg p -> p_params p = [] -> (forall e, In e (p_els p) -> (e_reg e = true <-> e_belong e = None)) ->
  exists b q, save p = LOk b /\ load reg d2 b = LOk q /\ same_pl p q.
Proof.
  intros reg d2 p G P R. assert (E : filter e_repo (p_els p) = p_els p) by (apply filter_all; apply Forall_forall; apply (gp_all _ _ G)).
  destruct (round_gen reg d2 p (p_els p) (gp_init _ _ G) E (gp_els _ _ G) (gp_links _ _ G) P (gp_events _ _ G) (gp_daemons _ _ G) (gp_stages _ _ G) (gp_cfg _ _ G) (gp_fits _ _ G)) as (b & S & L).
  eexists b, _. split; [exact S|]. split; [exact L|]. unfold same_pl. cbn [p_els p_events p_params p_daemons p_stages p_cfg]. unfold blank.
  split.
  - assert (Q : forall l, (forall e, In e l -> In e (p_els p)) -> Forall2 same_el l (map (el3 (p_els p)) l)).
    { induction l as [|e l IH]; intros H; [constructor|]. cbn [map]. constructor; [|apply IH; intros x Hx; apply H; now right].
      assert (He := H e (or_introl eq_refl)). unfold same_el, el3. cbn. do 13 (split; [reflexivity|]). split; [|split; [|split]].
      - symmetry. apply filter_all. intros k Hk. apply here_spec. exact (gp_kids _ _ G e k He Hk).
      - unfold blank_a. now rewrite map_map.
      - unfold blank. now rewrite map_map.
      - specialize (R e He). unfold top. destruct (e_belong e); destruct (e_reg e); intuition congruence. }
    apply Q. easy.
  - rewrite !map_map. cbn [fst snd]. do 3 (split; [easy|]). split; [easy|reflexivity].
Qed.
Example C39_round_trip_ex : good ex_reg ex_pl /\ p_params ex_pl = [] /\ (forall e, In e (p_els ex_pl) -> (e_reg e = true <-> e_belong e = None)) /\
  exists b q, save ex_pl = LOk b /\ load ex_reg (500, 1)%N b = LOk q /\ length b = 815 /\ ids (p_els q) = [[20]; [21]; [30]; [22]]%N /\ map e_kids (p_els q) = [[]; []; [[20]; [21]]; []]%N.
Proof.
  split; [apply ex_good|]. split; [easy|]. split.
  - cbn. intros e H. repeat (destruct H as [<-|H]; [cbn; intuition discriminate|]). destruct H.
  - eexists _, _. split; [vm_compute; reflexivity|]. split; [vm_compute; reflexivity|]. split; [vm_compute; reflexivity|]. split; reflexivity.
Qed.

(** C39: a pipeline that holds a parameter is saved, and loading the file never succeeds. (typeid names are not empty.) *)
Theorem C39_params_refuted : forall reg d2 p b, reg [] = None -> pl_fits p -> p_params p <> [] -> save p = LOk b -> forall q, load reg d2 b <> LOk q.
Proof.
  intros reg d2 p b R F P S q L. assert (S' := S). unfold save in S'. destruct (p_init p) eqn:I; [discriminate|]. destruct (existsb _ (p_els p)) eqn:A; [discriminate|]. clear S'.
  destruct (save_reads p F I A) as (b' & v & W & Rd & O). rewrite S in W. injection W as <-. unfold load in L. rewrite Rd, O in L. cbn [store ps_els ps_events ps_params ps_daemons ps_stages ps_cfg] in L.
  destruct (load_elements _ _); try discriminate L. cbn [bind] in L. destruct (each (load_event reg) _ _); try discriminate L. cbn [bind] in L.
  destruct (p_params p) as [|x l]; [easy|]. cbn [map each] in L. unfold load_param at 1 in L. cbn [snd] in L. rewrite R in L. cbn [bind] in L. discriminate.
Qed.
Example C39_params_ex : exists p b, pl_fits p /\ p_params p = [([60], ([8], true, 5%nat))]%N /\ ex_reg [8]%N = Some OParam /\ save p = LOk b /\ load ex_reg (500, 1)%N b = LErr.
Proof.
  eexists (mkPl false [] [] [([60], ([8], true, 5%nat))]%N [] [] ex_cfg (500, 1)%N 0 false), _. split.
  - split; [constructor|]. split; [constructor|]. split; [constructor|]. split; [repeat (apply Forall2_cons; [reflexivity|]); constructor|vm_compute; reflexivity].
  - split; [reflexivity|]. split; [reflexivity|]. split; [vm_compute; reflexivity|]. vm_compute. reflexivity.
Qed.

(** C39: what is lost although the load succeeds: the two fields of the configuration that are not in the table have their defaults, the engines are the default, a shared pool is not used, and all the data of
    aspects, passed parameters, events, daemons and stages is that of new objects. *)
Theorem C39_settings_refuted : forall reg d2 p, good reg p -> p_params p = [] ->
  exists b q, save p = LOk b /\ load reg d2 b = LOk q /\ p_cfg2 q = d2 /\ p_engine q = 0 /\ p_shared q = false /\ Forall (fun e => e_engine e = 0) (p_els q).
Proof.
  intros reg d2 p G P. assert (E : filter e_repo (p_els p) = p_els p) by (apply filter_all; apply Forall_forall; apply (gp_all _ _ G)).
  destruct (round_gen reg d2 p (p_els p) (gp_init _ _ G) E (gp_els _ _ G) (gp_links _ _ G) P (gp_events _ _ G) (gp_daemons _ _ G) (gp_stages _ _ G) (gp_cfg _ _ G) (gp_fits _ _ G)) as (b & S & L).
  eexists b, _. split; [exact S|]. split; [exact L|]. do 3 (split; [reflexivity|]). cbn [p_els]. apply Forall_forall. intros e He. apply in_map_iff in He as (x & <- & _). reflexivity.
Qed.
Theorem C39_values_refuted : forall reg d2 p, good reg p -> p_params p = [] ->
  exists b q, save p = LOk b /\ load reg d2 b = LOk q /\ map (fun x => snd (snd x)) (p_events q) = repeat 0 (length (p_events p)) /\ map snd (p_daemons q) = repeat 0 (length (p_daemons p)) /\
    map (fun x => snd (snd x)) (p_stages q) = repeat 0 (length (p_stages p)) /\
    Forall2 (fun e e' => map snd (e_aspects e') = repeat 0 (length (e_aspects e)) /\ map (fun x => snd (snd x)) (e_locals e') = repeat 0 (length (e_locals e))) (p_els p) (p_els q).
Proof.
  intros reg d2 p G P. assert (E : filter e_repo (p_els p) = p_els p) by (apply filter_all; apply Forall_forall; apply (gp_all _ _ G)).
  destruct (round_gen reg d2 p (p_els p) (gp_init _ _ G) E (gp_els _ _ G) (gp_links _ _ G) P (gp_events _ _ G) (gp_daemons _ _ G) (gp_stages _ _ G) (gp_cfg _ _ G) (gp_fits _ _ G)) as (b & S & L).
  assert (Z : forall A (l : list A), map (fun _ => 0) l = repeat 0 (length l)) by (induction l as [|x l IH]; [easy|]; cbn; now rewrite IH).
  eexists b, _. split; [exact S|]. split; [exact L|]. cbn [p_els p_events p_daemons p_stages]. unfold blank. rewrite !map_map. cbn [snd]. rewrite !Z. do 3 (split; [reflexivity|]).
  generalize (p_els p) at 1 3. intros l. induction l as [|e l IH]; [constructor|]. cbn [map]. constructor; [|exact IH]. unfold el3. cbn [e_aspects e_locals]. unfold blank_a, blank. rewrite !map_map. cbn [snd]. now rewrite !Z.
Qed.
Example C39_values_ex : good ex_reg ex_pl /\ p_params ex_pl = [] /\ map (fun x => snd (snd x)) (p_events ex_pl) = [3] /\ map snd (e_aspects (nth 0 (p_els ex_pl) (ex_node 0 None [] 1 0 false false))) = [9].
Proof. split; [apply ex_good|]. repeat split. Qed.

(** C39: an element that was created and registered nowhere takes no part in the runs of the pipeline; after loading it does. *)
Theorem C39_unattached_refuted : forall reg d2 p e, good reg p -> p_params p = [] -> In e (p_els p) -> e_belong e = None -> e_reg e = false ->
  exists b q e', save p = LOk b /\ load reg d2 b = LOk q /\ In e' (p_els q) /\ e_sess e' = e_sess e /\ e_reg e' = true.
Proof.
  intros reg d2 p e G P He B _. assert (E : filter e_repo (p_els p) = p_els p) by (apply filter_all; apply Forall_forall; apply (gp_all _ _ G)).
  destruct (round_gen reg d2 p (p_els p) (gp_init _ _ G) E (gp_els _ _ G) (gp_links _ _ G) P (gp_events _ _ G) (gp_daemons _ _ G) (gp_stages _ _ G) (gp_cfg _ _ G) (gp_fits _ _ G)) as (b & S & L).
  eexists b, _, (el3 (p_els p) e). split; [exact S|]. split; [exact L|]. cbn [p_els]. split; [now apply in_map|]. split; [reflexivity|]. unfold el3, top. cbn. now rewrite B.
Qed.
Example C39_unattached_ex : exists b q, save (mkPl false [ex_node 20 None [] 1 0 false false] [] [] [] [] ex_cfg (500, 1)%N 0 false) = LOk b /\ load ex_reg (500, 1)%N b = LOk q /\ map e_reg (p_els q) = [true].
Proof. eexists _, _. split; [vm_compute; reflexivity|]. split; [vm_compute; reflexivity|]. reflexivity. Qed.

(** C39: setLoop(0) and then setTimeout on a registered element are accepted; a pipeline with such an element cannot be loaded. *)
Definition seen (s : str) (T : N) (h : list el) : Prop := exists x, find_el s h = Some x /\ e_tmo x = T.
Lemma find_filter s t h : s <> t -> find_el s (filter (fun x => negb (seqb (e_sess x) t)) h) = find_el s h.
Proof.
  intros N. induction h as [|x h IH]; [easy|]. cbn [filter find_el find]. destruct (seqb (e_sess x) t) eqn:E; cbn [negb].
  - apply seqb_eq in E. fold (find_el s h). rewrite seqb_neq by congruence. exact IH.
  - cbn [find]. destruct (seqb (e_sess x) s); [easy|]. exact IH.
Qed.
Lemma find_snoc s h e : find_el s (h ++ [e]) = match find_el s h with Some x => Some x | None => if seqb (e_sess e) s then Some e else None end.
Proof. induction h as [|x h IH]; [easy|]. cbn [app find_el find]. destruct (seqb (e_sess x) s); [easy|]. exact IH. Qed.
Lemma find_gone s h : find_el s (filter (fun x => negb (seqb (e_sess x) s)) h) = None.
Proof. apply find_not. intros H. apply in_map_iff in H as (x & <- & Hx). apply filter_In in Hx as [_ Hx]. now rewrite seqb_refl in Hx. Qed.
Lemma find_on s t f h : (forall x, e_sess (f x) = e_sess x \/ e_sess (f x) = t) -> s <> t -> find_el s (on t f h) = find_el s h.
Proof.
  intros F N. induction h as [|x h IH]; [easy|]. cbn [on map find_el find]. destruct (seqb (e_sess x) t) eqn:E.
  - apply seqb_eq in E. rewrite !seqb_neq; [exact IH|congruence|]. destruct (F x); congruence.
  - destruct (seqb (e_sess x) s); [easy|]. exact IH.
Qed.
Lemma load1_keeps reg t h h' s T : load1 reg t h = LOk h' -> s <> t_sess t -> seen s T h -> seen s T h'.
Proof.
  unfold load1. intros L N (x & F & E). destruct (reg (t_cls t)) as [[ty tmo| | | | | |]|]; try discriminate. destruct (negb _); [discriminate|]. destruct (recover t ty tmo) as [e|] eqn:R; [|discriminate].
  injection L as <-. exists x. split; [|exact E]. unfold cache_put. rewrite find_snoc, find_filter, F; [easy|].
  unfold recover in R. destruct (set_loop _ _); [|discriminate]. destruct (set_timeout _ _ _); [|discriminate]. injection R as <-. exact N.
Qed.
Lemma load1_sees reg t h h' : load1 reg t h = LOk h' -> seen (t_sess t) (t_tmo t) h'.
Proof.
  unfold load1. intros L. destruct (reg (t_cls t)) as [[ty tmo| | | | | |]|]; try discriminate. destruct (negb _); [discriminate|]. destruct (recover t ty tmo) as [e|] eqn:R; [|discriminate].
  injection L as <-. assert (Q : e_sess e = t_sess t /\ e_tmo e = t_tmo t).
  { unfold recover in R. destruct (set_loop _ _); [|discriminate]. unfold set_timeout in R. destruct (_ && _); [discriminate|]. injection R as <-. now split. }
  destruct Q as [Q1 Q2]. exists e. split; [|exact Q2]. unfold cache_put. rewrite <- Q1. now rewrite find_snoc, find_gone, seqb_refl.
Qed.
Lemma each1_sees reg : forall l h h' s T, each (load1 reg) l h = LOk h' -> NoDup (map t_sess l) ->
  (seen s T h /\ ~ In s (map t_sess l)) \/ (exists t, In t l /\ t_sess t = s /\ t_tmo t = T) -> seen s T h'.
Proof.
  induction l as [|t l IH]; intros h h' s T L ND H; cbn [each] in L; [injection L as <-; now destruct H as [[? _]|(? & [] & _)]|].
  destruct (load1 reg t h) as [h1| | |] eqn:L1; try discriminate. cbn [bind] in L. cbn [map] in ND. inversion ND as [|? ? N1 N2]; subst. apply (IH h1 h' s T L N2). destruct H as [[H1 H2]|(t' & [<-|Ht] & S & E)].
  - left. split; [apply (load1_keeps reg t h h1 s T L1); [intros ->; apply H2; now left|exact H1]|intros Q; apply H2; now right].
  - left. subst. split; [exact (load1_sees _ _ _ _ L1)|exact N1].
  - right. exists t'. auto.
Qed.
Lemma load2_keeps reg t h h' s T : load2 reg t h = LOk h' -> s <> t_sess t -> seen s T h -> seen s T h'.
Proof.
  unfold load2. intros L N (x & F & E). destruct (find_el (t_sess t) h) as [e|] eqn:Fe; [|discriminate]. exists x. split; [|exact E]. destruct (t_belong t) as [|c b].
  - destruct (set_loop e (t_loop t)) as [e'|] eqn:SL; [|discriminate]. destruct (_ && _); [|discriminate]. injection L as <-. rewrite find_on; [exact F| |exact N].
    intros y. right. unfold set_loop in SL. destruct (_ && _); [discriminate|]. injection SL as <-. cbn. apply find_some in Fe as [_ Fe]. now apply seqb_eq in Fe.
  - destruct (_ && _); [|discriminate]. injection L as <-. rewrite find_on; [exact F| |exact N]. intros y. now left.
Qed.
Lemma each2_fails reg s : forall l h h', each (load2 reg) l h = LOk h' -> NoDup (map t_sess l) -> forall t, In t l -> t_sess t = s -> t_belong t = [] -> (0 < t_tmo t)%N -> t_loop t <> 1%N -> seen s (t_tmo t) h -> False.
Proof.
  induction l as [|t l IH]; intros h h' L ND u Hu S B T K Z; [easy|]. cbn [each] in L. destruct (load2 reg t h) as [h1| | |] eqn:L1; try discriminate. cbn [bind map] in *. inversion ND as [|? ? N1 N2]; subst.
  destruct Hu as [<-|Hu].
  - destruct Z as (x & F & E). unfold load2 in L1. rewrite F, B in L1. unfold set_loop in L1. rewrite E in L1. apply N.ltb_lt in T. apply N.eqb_neq in K. rewrite T, K in L1. discriminate L1.
  - apply (IH h1 h' L N2 u Hu eq_refl B T K). apply (load2_keeps reg t h h1); [easy| |easy]. intros Q. apply N1. rewrite <- Q. now apply in_map.
Qed.
Theorem C39_loop_zero_refuted : forall reg d2 p b e, pl_fits p -> NoDup (ids (p_els p)) -> In e (p_els p) -> e_repo e = true -> e_belong e = None -> (0 < e_tmo e)%N -> e_loop e = 0%N ->
  save p = LOk b -> forall q, load reg d2 b <> LOk q.
Proof.
  intros reg d2 p b e F ND He Re B T K S q L. assert (S' := S). unfold save in S'. destruct (p_init p) eqn:I; [discriminate|]. destruct (existsb _ (p_els p)) eqn:A; [discriminate|]. clear S'.
  destruct (save_reads p F I A) as (b' & v & W & Rd & O). rewrite S in W. injection W as <-. unfold load in L. rewrite Rd, O in L. cbn [store ps_els ps_events ps_params ps_daemons ps_stages ps_cfg] in L.
  destruct (load_elements _ _) as [h| | |] eqn:LE; try discriminate L. clear L. unfold load_elements in LE. set (l := map store_el (filter e_repo (p_els p))) in *.
  assert (NDl : NoDup (map t_sess l)).
  { unfold l. rewrite map_map. cbn [t_sess store_el]. clear - ND. induction (p_els p) as [|x m IH]; [constructor|]. cbn in ND. inversion ND as [|? ? N1 N2]; subst. cbn [filter]. destruct (e_repo x); [|now apply IH].
    cbn [map]. constructor; [|now apply IH]. intros Q. apply N1. apply in_map_iff in Q as (y & <- & Hy). apply filter_In in Hy as [Hy _]. now apply in_map. }
  assert (Hl : In (store_el e) l) by (apply in_map; apply filter_In; now split).
  destruct (each (load1 reg) l []) as [h1| | |] eqn:E1; try discriminate LE. cbn [bind] in LE. destruct (each (load2 reg) l h1) as [h2| | |] eqn:E2; try discriminate LE.
  refine (each2_fails reg (e_sess e) l h1 h2 E2 NDl (store_el e) Hl eq_refl _ T _ _).
  - cbn. now rewrite B.
  - cbn. rewrite K. discriminate.
  - apply (each1_sees reg l [] h1 _ _ E1 NDl). right. exists (store_el e). auto.
Qed.
(** setLoop(0), then setTimeout(100), on a new element. *)
Example C39_loop_zero_ex : exists e e' b, set_loop (ex_node 20 None [] 1 0 false true) 0 = Some e /\ set_timeout e 100 1 = Some e' /\
  save (mkPl false [e'] [] [] [] [] ex_cfg (500, 1)%N 0 false) = LOk b /\ load ex_reg (500, 1)%N b = LThrow.
Proof. eexists _, _, _. split; [reflexivity|]. split; [reflexivity|]. split; [vm_compute; reflexivity|]. vm_compute. reflexivity. Qed.

(** C39: a pipeline that was loaded, saved again before init and loaded again: all that was inside groups is gone, and no error is reported. *)
Lemma size_field i t ts v vs : refl_size (fields_of i (t :: ts)) (vfields (v :: vs)) = refl_size t v + refl_size (fields_of (i + 1) ts) (vfields vs).
Proof. reflexivity. Qed.
Lemma size_pl s : u_size ty_pl (v_pl s) = refl_size (TVec ty_el) (vlist v_el (ps_els s)) + u_size ty_pl (v_pl (mkPst [] (ps_events s) (ps_params s) (ps_daemons s) (ps_stages s) (ps_cfg s))) - 9.
Proof.
  unfold u_size, ty_pl, v_pl. rewrite !size_field. cbn [ps_els ps_events ps_params ps_daemons ps_stages ps_cfg]. change (refl_size (TVec ty_el) (vlist v_el [])) with 9. lia.
Qed.
Lemma size_filter (f : el -> bool) l : refl_size (TVec ty_el) (vlist v_el (map store_el (filter f l))) <= refl_size (TVec ty_el) (vlist v_el (map store_el l)).
Proof.
  cbn [refl_size vlist]. rewrite !fold_size. assert (Q : sumf (refl_size ty_el) (map v_el (map store_el (filter f l))) <= sumf (refl_size ty_el) (map v_el (map store_el l))); [|lia].
  induction l as [|e l IH]; [easy|]. cbn [filter]. destruct (f e); cbn [map sumf fold_right]; unfold sumf in *; cbn [map fold_right] in *; lia.
Qed.
Lemma same_id (l : list el) x y : NoDup (ids l) -> In x l -> In y l -> e_sess x = e_sess y -> x = y.
Proof.
  induction l as [|z l IH]; [easy|]. cbn. intros ND Hx Hy E. inversion ND as [|? ? N1 N2]; subst. destruct Hx as [->|Hx], Hy as [->|Hy]; [easy| | |now apply IH].
  - exfalso. apply N1. rewrite E. now apply in_map.
  - exfalso. apply N1. rewrite <- E. now apply in_map.
Qed.
Theorem C39_resave_refuted : forall reg d2 p, good reg p -> p_params p = [] ->
  exists b q b2 r, save p = LOk b /\ load reg d2 b = LOk q /\ save q = LOk b2 /\ load reg d2 b2 = LOk r /\
    ids (p_els r) = ids (filter (fun e => match e_belong e with None => true | Some _ => false end) (p_els p)) /\ Forall (fun e => e_kids e = []) (p_els r).
Proof.
  intros reg d2 p G P. assert (E : filter e_repo (p_els p) = p_els p) by (apply filter_all; apply Forall_forall; apply (gp_all _ _ G)).
  destruct (round_gen reg d2 p (p_els p) (gp_init _ _ G) E (gp_els _ _ G) (gp_links _ _ G) P (gp_events _ _ G) (gp_daemons _ _ G) (gp_stages _ _ G) (gp_cfg _ _ G) (gp_fits _ _ G)) as (b & S & L).
  match type of L with _ = LOk ?x => set (q := x) in * end. set (l := p_els p) in *.
  assert (K := gp_links _ _ G). fold l in K.
  set (L' := map (el3 l) (filter top l)).
  assert (Eq : filter e_repo (p_els q) = L').
  { unfold q, L'. cbn [p_els]. clear. generalize l at 1 3. intros m. induction l as [|e l IH]; [easy|]. cbn [map filter]. change (e_repo (el3 m e)) with (top e). destruct (top e); cbn [map]; now rewrite IH. }
  assert (K3 : forall e, In e l -> e_kids (el3 l e) = e_kids e).
  { intros e He. cbn. apply filter_all. intros k Hk. apply here_spec. exact (gp_kids _ _ G e k He Hk). }
  assert (S3 : forall e, In e l -> store_el (el3 l e) = store_el e).
  { intros e He. unfold store_el. rewrite (K3 e He). cbn. unfold blank_a, blank. rewrite !map_map. reflexivity. }
  assert (In3 : forall x, In x L' -> exists e, In e l /\ e_belong e = None /\ x = el3 l e).
  { intros x Hx. unfold L' in Hx. apply in_map_iff in Hx as (e & <- & He). apply filter_In in He as [He T]. exists e. split; [easy|]. unfold top in T. now destruct (e_belong e). }
  assert (Up : forall e, In e l -> e_belong e = None -> In (el3 l e) L').
  { intros e He B. apply in_map. apply filter_In. split; [easy|]. unfold top. now rewrite B. }
  assert (G3 : Forall (good_el reg) (p_els q)).
  { apply Forall_forall. intros x Hx. unfold q in Hx. cbn [p_els] in Hx. apply in_map_iff in Hx as (e & <- & He). assert (Q := gp_els _ _ G). fold l in Q. rewrite Forall_forall in Q. destruct (Q e He) as [A1 A2 A3 A4 A5 A6 A7 A8].
    split; cbn; try assumption.
    - apply Forall_forall. intros a Ha. unfold blank_a in Ha. apply in_map_iff in Ha as (c & <- & Hc). cbn. rewrite Forall_forall in A7. now apply A7.
    - apply Forall_forall. intros a Ha. unfold blank in Ha. apply in_map_iff in Ha as (c & <- & Hc). cbn. rewrite Forall_forall in A8. now apply A8. }
  assert (IL : ids L' = ids (filter top l)) by (unfold L'; now rewrite ids_map).
  assert (NK : forall e k, In e l -> In k (e_kids e) -> ~ In k (ids L')).
  { intros e k He Hk Q. apply in_map_iff in Q as (x & Ex & Hx). destruct (In3 x Hx) as (c & Hc & Bc & ->). cbn in Ex. destruct (gl_kid _ K e k c He Hk Hc Ex) as [Q _]. congruence. }
  assert (GL : good_links L').
  { split.
    - rewrite IL. assert (ND := gl_ids _ K). clear - ND. induction l as [|e l IH]; [constructor|]. cbn in ND. inversion ND as [|? ? N1 N2]; subst. cbn [filter]. destruct (top e); [|now apply IH].
      cbn. constructor; [|now apply IH]. intros Q. apply N1. apply in_map_iff in Q as (y & <- & Hy). apply filter_In in Hy as [Hy _]. now apply in_map.
    - intros x g Hx B. destruct (In3 x Hx) as (e & He & Be & ->). cbn in B. congruence.
    - intros x Hx. destruct (In3 x Hx) as (e & He & Be & ->). rewrite (K3 e He). exact (gl_kids _ K e He).
    - intros x k c Hx Hk Hc Ec. exfalso. destruct (In3 x Hx) as (e & He & Be & ->). rewrite (K3 e He) in Hk. apply (NK e k He Hk). rewrite <- Ec. now apply in_map.
    - intros x Hx. destruct (In3 x Hx) as (e & He & Be & ->). exact (gl_deps _ K e He).
    - intros x d Hx Hd. destruct (In3 x Hx) as (e & He & Be & ->). cbn in Hd. destruct (gl_dep _ K e d He Hd) as (y & Hy & Sy & By). exists (el3 l y). split; [apply Up; [easy|congruence]|]. cbn. split; congruence. }
  assert (F : pl_fits q).
  { destruct (gp_fits _ _ G) as (F1 & F2 & F3 & F4 & F5). unfold q. split; [|split; [|split; [|split]]]; cbn [p_els p_daemons p_stages p_cfg].
    - apply Forall_forall. intros x Hx. apply in_map_iff in Hx as (e & <- & He). rewrite Forall_forall in F1. exact (F1 e He).
    - apply Forall_forall. intros x Hx. apply in_map_iff in Hx as (e & <- & He). rewrite Forall_forall in F2. exact (F2 e He).
    - apply Forall_forall. intros x Hx. apply in_map_iff in Hx as (e & <- & He). rewrite Forall_forall in F3. exact (F3 e He).
    - exact F4.
    - fold q. eapply N.le_lt_trans; [|exact F5].
      assert (Z : u_size ty_pl (v_pl (store q)) <= u_size ty_pl (v_pl (store p))).
      { assert (SQ : store q = mkPst (map store_el (filter top l)) (ps_events (store p)) (ps_params (store p)) (ps_daemons (store p)) (ps_stages (store p)) (ps_cfg (store p))).
        { unfold store. rewrite Eq, P. unfold q. cbn [ps_events ps_params ps_daemons ps_stages ps_cfg p_events p_params p_daemons p_stages p_cfg]. unfold blank. rewrite !map_map. cbn [fst snd]. f_equal.
          unfold L'. rewrite map_map. apply map_ext_in. intros e He. apply filter_In in He as [He _]. now apply S3. }
        rewrite (size_pl (store q)), (size_pl (store p)), SQ. cbn [ps_els ps_events ps_params ps_daemons ps_stages ps_cfg].
        replace (ps_els (store p)) with (map store_el l) by (unfold store; cbn [ps_els]; fold l; rewrite E; reflexivity).
        pose proof (size_filter top l). lia. }
      lia. }
  destruct (round_gen reg d2 q L' eq_refl Eq G3 GL eq_refl) as (b2 & S2 & L2).
  - destruct (gp_events _ _ G) as [A B]. unfold q. cbn [p_events]. unfold blank. rewrite map_map. split; [exact A|]. apply Forall_forall. intros x Hx. apply in_map_iff in Hx as (y & <- & Hy). cbn. rewrite Forall_forall in B. now apply B.
  - assert (B := gp_daemons _ _ G). unfold q. cbn [p_daemons]. apply Forall_forall. intros x Hx. apply in_map_iff in Hx as (y & <- & Hy). cbn. rewrite Forall_forall in B. now apply B.
  - destruct (gp_stages _ _ G) as [A B]. unfold q. cbn [p_stages]. unfold blank. rewrite map_map. split; [exact A|]. apply Forall_forall. intros x Hx. apply in_map_iff in Hx as (y & <- & Hy). cbn. rewrite Forall_forall in B. now apply B.
  - exact (gp_cfg _ _ G).
  - exact F.
  - eexists b, q, b2, _. split; [exact S|]. split; [exact L|]. split; [exact S2|]. split; [exact L2|]. cbn [p_els]. split.
    + rewrite ids_map by easy. exact IL.
    + apply Forall_forall. intros x Hx. apply in_map_iff in Hx as (y & <- & Hy). destruct (In3 y Hy) as (e & He & Be & ->). unfold el3 at 1. cbn [e_kids]. fold (here L').
      change (filter (here L') (e_kids (el3 l e)) = []). rewrite (K3 e He). assert (N := NK e). clear - N He. specialize (fun k => N k He). induction (e_kids e) as [|k ks IH]; [easy|]. cbn [filter].
      destruct (here L' k) eqn:Q; [exfalso; apply here_spec in Q; apply (N k); [now left|easy]|]. apply IH. intros k' Hk'. apply N. now right.
Qed.
Example C39_resave_ex : exists b q b2 r, save ex_pl = LOk b /\ load ex_reg (500, 1)%N b = LOk q /\ save q = LOk b2 /\ load ex_reg (500, 1)%N b2 = LOk r /\
  ids (p_els ex_pl) = [[20]; [21]; [30]; [22]]%N /\ ids (p_els r) = [[30]; [22]]%N.
Proof. eexists _, _, _, _. split; [vm_compute; reflexivity|]. split; [vm_compute; reflexivity|]. split; [vm_compute; reflexivity|]. split; [vm_compute; reflexivity|]. split; reflexivity. Qed.

(** C39: save refuses exactly the initialised pipelines and those with an adapter; every other one is written, inside the buffer. *)
Theorem C39_save_refuses_partial : forall p, pl_fits p -> (save p = LErr <-> p_init p = true \/ exists e, In e (p_els p) /\ e_repo e = true /\ is_adapter (e_type e) = true) /\ save p <> LUndef /\ save p <> LThrow.
Proof.
  intros p F. destruct (p_init p) eqn:I.
  - unfold save. rewrite I. split; [intuition|split; discriminate].
  - destruct (existsb (fun e => e_repo e && is_adapter (e_type e)) (p_els p)) eqn:A.
    + unfold save. rewrite I, A. split; [|split; discriminate]. split; [|easy]. intros _. right. apply existsb_exists in A as (e & He & A). apply andb_prop in A. now exists e.
    + destruct (save_reads p F I A) as (b & _ & -> & _). split; [|split; discriminate]. split; [discriminate|]. intros [?|(e & He & R & T)]; [discriminate|]. exfalso.
      assert (Q : existsb (fun e => e_repo e && is_adapter (e_type e)) (p_els p) = true) by (apply existsb_exists; exists e; now rewrite R, T). congruence.
Qed.
Print Assumptions C39_round_trip_partial.
Print Assumptions C39_resave_refuted.
Print Assumptions C39_loop_zero_refuted.

(** C39: a class whose new objects have a timeout already (its constructor calls setTimeout). An object of it whose timeout was switched off and whose loop is not 1 is saved, but the file cannot be loaded: restoring the loop comes before restoring the timeout, and throws. *)
Lemma each1_fails reg t ty tmo : reg (t_cls t) = Some (OElement ty tmo) -> (0 < tmo)%N -> t_loop t <> 1%N -> forall l h h', In t l -> each (load1 reg) l h = LOk h' -> False.
Proof.
  intros R T K. induction l as [|u l IH]; intros h h' Hu L; [easy|]. cbn [each] in L. destruct (load1 reg u h) as [h1| | |] eqn:L1; try discriminate. cbn [bind] in L. destruct Hu as [->|Hu]; [|now apply (IH h1 h')].
  unfold load1 in L1. rewrite R in L1. destruct (negb _); [discriminate|]. unfold recover, set_loop in L1. cbn [e_tmo] in L1. apply N.ltb_lt in T. apply N.eqb_neq in K. rewrite T, K in L1. discriminate L1.
Qed.
Theorem C39_own_timeout_refuted : forall reg d2 p b e ty tmo, pl_fits p -> In e (p_els p) -> e_repo e = true -> reg (e_cls e) = Some (OElement ty tmo) -> (0 < tmo)%N -> e_loop e <> 1%N ->
  save p = LOk b -> forall q, load reg d2 b <> LOk q.
Proof.
  intros reg d2 p b e ty tmo F He Re R T K S q L. assert (S' := S). unfold save in S'. destruct (p_init p) eqn:I; [discriminate|]. destruct (existsb _ (p_els p)) eqn:A; [discriminate|]. clear S'.
  destruct (save_reads p F I A) as (b' & v & W & Rd & O). rewrite S in W. injection W as <-. unfold load in L. rewrite Rd, O in L. cbn [store ps_els ps_events ps_params ps_daemons ps_stages ps_cfg] in L.
  destruct (load_elements _ _) as [h| | |] eqn:LE; try discriminate L. clear L. unfold load_elements in LE. set (l := map store_el (filter e_repo (p_els p))) in *.
  assert (Hl : In (store_el e) l) by (apply in_map; apply filter_In; now split).
  destruct (each (load1 reg) l []) as [h1| | |] eqn:E1; try discriminate LE. exact (each1_fails reg (store_el e) ty tmo R T K l [] h1 Hl E1).
Qed.
Print Assumptions C39_own_timeout_refuted.
Example C39_own_timeout_ex : exists b, let slow c := match c with [1%N] => Some (OElement ty_node 50) | _ => ex_reg c end in
  save (mkPl false [ex_node 20 None [] 3 0 false true] [] [] [] [] ex_cfg (500, 1)%N 0 false) = LOk b /\ load slow (500, 1)%N b = LThrow.
Proof. eexists. cbn zeta. split; [vm_compute; reflexivity|]. vm_compute. reflexivity. Qed.
