(** C120: waiting for events ends. *)
From Verif Require Import EventModel EventProps.
Local Open Scope nat_scope.
Local Open Scope list_scope.

(** The pipeline is inside a call of run() that has left the engine, or of destroy(). *)
Definition inside (ph : ephase) : Prop := match ph with PhRWait _ _ | PhDown | PhDWait _ _ => True | _ => False end.
(** Steps by which that call and the pool go on; no thread has to notify or to start a call. *)
Definition own_step (l : evlabel) : Prop := match l with VWait | VPoolDown | VStart _ | VFinish _ => True | _ => False end.
(** Everything but new calls: also the rest of a notify whose task is with the pool, and the engine returning. *)
Definition no_call (l : evlabel) : Prop := match l with VElems | VWait | VPoolDown | VStore _ | VStart _ | VFinish _ => True | _ => False end.

Lemma reach_inv keys u ls s : NoDup keys -> ev_run (ev_new keys u) ls = ENext s -> einvA s /\ einvB s.
Proof. intros N R. exact (AB_run _ _ _ (A_new keys u) (B_new keys u N) R). Qed.
Lemma ready_or s t : einvA s -> t < v_next s -> ready_fut (v_task s t) = true \/ v_task s t = TQueued \/ v_task s t = TRunning.
Proof. intros A L. apply (a_fresh s A) in L. destruct (v_task s t); auto; now destruct L. Qed.
Lemma go_task s t : v_ph s <> PhGone -> v_task s t = TQueued \/ v_task s t = TRunning -> exists l s', own_step l /\ ev_step s l = ENext s'.
Proof.
  intros G [E|E]; [exists (VStart t)|exists (VFinish t)]; cbn [ev_step own_step]; rewrite E; destruct (v_ph s); try (eexists; split; [exact I|reflexivity]); now destruct G.
Qed.

(** Whatever has been called and however the threads were scheduled: as long as run() is waiting for events or destroy() has not returned, this call can make a step itself or a
    trigger it waits for can be started or finished. *)
Theorem C120_never_stuck : forall keys u ls s, NoDup keys -> ev_run (ev_new keys u) ls = ENext s -> inside (v_ph s) ->
  exists l s', own_step l /\ ev_step s l = ENext s'.
Proof.
  intros keys u ls s N R I. destruct (reach_inv _ _ _ _ N R) as [A B]. pose proof (b_cur s B) as C.
  assert (G : v_ph s <> PhGone) by (intros E; rewrite E in I; exact I).
  destruct (v_ph s) as [| | |todo cur| |todo cur|] eqn:P; try (now destruct I).
  - destruct cur as [[k [|t w]]|]; [| |destruct todo as [|k r]].
    + exists VWait. cbn [ev_step]. rewrite P. destruct todo; (eexists; split; [exact I|reflexivity]).
    + destruct C as [_ C]. specialize (C k (t :: w) t eq_refl (or_introl eq_refl)). destruct (ready_or s t A C) as [Y|Y].
      * exists VWait. cbn [ev_step]. rewrite P, Y. destruct todo; (eexists; split; [exact I|reflexivity]).
      * apply (go_task s t); [rewrite P; discriminate|exact Y].
    + exists VWait. cbn [ev_step]. rewrite P. eexists; split; [exact I|reflexivity].
    + exists VWait. cbn [ev_step]. rewrite P. eexists; split; [exact I|reflexivity].
  - destruct (v_unique s) eqn:U.
    + destruct (existsb (fun t => match v_task s t with TRunning => true | _ => false end) (seq 0 (v_next s))) eqn:X.
      * apply existsb_exists in X as (t & _ & X). apply (go_task s t); [rewrite P; discriminate|]. destruct (v_task s t); try discriminate. auto.
      * exists VPoolDown. cbn [ev_step]. rewrite P, U, X. eexists; split; [exact I|reflexivity].
    + exists VPoolDown. cbn [ev_step]. rewrite P, U. eexists; split; [exact I|reflexivity].
  - destruct cur as [[k [|t w]]|]; [| |destruct todo as [|k r]].
    + exists VWait. cbn [ev_step]. rewrite P. destruct todo; (eexists; split; [exact I|reflexivity]).
    + destruct C as [_ C]. specialize (C k (t :: w) t eq_refl (or_introl eq_refl)). destruct (ready_or s t A C) as [Y|Y].
      * exists VWait. cbn [ev_step]. rewrite P, Y. destruct todo; (eexists; split; [exact I|reflexivity]).
      * apply (go_task s t); [rewrite P; discriminate|exact Y].
    + exists VWait. cbn [ev_step]. rewrite P. eexists; split; [exact I|reflexivity].
    + exists VWait. cbn [ev_step]. rewrite P. eexists; split; [exact I|reflexivity].
Qed.
Print Assumptions C120_never_stuck.

(** * A bound *)
Definition tw (x : tstat) : nat := match x with TQueued => 2 | TRunning => 1 | _ => 0 end.
Definition tasks (s : evst) : nat := list_sum (map (fun t => tw (v_task s t)) (seq 0 (v_next s))).
Definition lists (f : nat -> list nat) (ks : list nat) : nat := list_sum (map (fun k => 2 + length (f k)) ks).
Definition cw (cur : option (nat * list nat)) : nat := match cur with Some (_, w) => S (length w) | None => 0 end.
Definition phw (s : evst) : nat :=
  match v_ph s with
  | PhRun => 2 + lists (v_rf s) (v_keys s)
  | PhRWait r cur => 1 + lists (v_rf s) r + cw cur
  | PhDown => 2 + lists (v_de s) (v_keys s)
  | PhDWait r cur => 1 + lists (v_de s) r + cw cur
  | _ => 0
  end.
Definition weight (s : evst) : nat := tasks s + 2 * length (v_pend s) + phw s.

Lemma sum_le {A} (f g : A -> nat) l : (forall x, In x l -> f x <= g x) -> list_sum (map f l) <= list_sum (map g l).
Proof.
  induction l as [|a l IH]; intros H; cbn [map list_sum fold_right]; [apply le_n|]. fold (list_sum (map f l)). fold (list_sum (map g l)).
  pose proof (H a (or_introl eq_refl)). assert (list_sum (map f l) <= list_sum (map g l)) by (apply IH; intros; apply H; now right). lia.
Qed.
Lemma sum_upd (f : nat -> nat) (g : nat -> nat) t n : t < n -> g t < f t -> (forall x, x <> t -> g x = f x) -> list_sum (map g (seq 0 n)) < list_sum (map f (seq 0 n)).
Proof.
  intros L D O. assert (I : In t (seq 0 n)) by (apply in_seq; lia). apply in_split in I as (a & b & E). rewrite E, !map_app, !list_sum_app. cbn [map list_sum fold_right].
  fold (list_sum (map f b)). fold (list_sum (map g b)).
  assert (X : forall l, list_sum (map g l) <= list_sum (map f l)).
  { intros l. apply sum_le. intros x _. destruct (Nat.eq_dec x t) as [->|N]; [lia|rewrite O by exact N; apply le_n]. }
  pose proof (X a). pose proof (X b). lia.
Qed.
Lemma lists_app f k t ks : NoDup ks -> lists (upd f k (f k ++ [t])) ks <= S (lists f ks).
Proof.
  unfold lists. induction ks as [|a ks IH]; intros N; cbn [map list_sum fold_right]; [lia|]. inversion N as [|? ? NA NB]; subst.
  fold (list_sum (map (fun k => 2 + length (f k)) ks)). fold (list_sum (map (fun k0 => 2 + length (upd f k (f k ++ [t]) k0)) ks)).
  destruct (Nat.eq_dec a k) as [->|NE].
  - rewrite upd_same, app_length. cbn [length]. replace (list_sum (map (fun k0 => 2 + length (upd f k (f k ++ [t]) k0)) ks)) with (list_sum (map (fun k => 2 + length (f k)) ks)); [lia|].
    f_equal. apply map_ext_in. intros x X. rewrite upd_other; [reflexivity|]. intros ->. contradiction.
  - rewrite upd_other by congruence. specialize (IH NB). lia.
Qed.
Lemma lists_clear f k ks : lists (upd f k []) ks <= lists f ks.
Proof. unfold lists. apply sum_le. intros x _. destruct (Nat.eq_dec x k) as [->|N]; [rewrite upd_same; cbn; lia|rewrite upd_other by exact N; lia]. Qed.
Lemma pend_len (l : list (nat * strat)) t p : find (fun p => Nat.eqb (fst p) t) l = Some p -> length (filter (fun p => negb (Nat.eqb (fst p) t)) l) < length l.
Proof.
  induction l as [|a l IH]; cbn; [discriminate|]. destruct (Nat.eqb (fst a) t); cbn; [intros _|intros H; apply IH in H; lia].
  clear. induction l as [|b l IH]; cbn; [lia|]. destruct (negb _); cbn; lia.
Qed.
Lemma weight_step s l s' : einvA s -> einvB s -> no_call l -> ev_step s l = ENext s' -> weight s' < weight s.
Proof.
  intros A B NC E. pose proof (b_cur s B) as C. pose proof (b_keys s B) as KN. destruct l; try (now destruct NC); cbn [ev_step] in E.
  - (* VElems *) destruct (v_ph s) eqn:P; try discriminate E. injection E as <-. unfold weight, phw, tasks, with_ph. cbn [v_task v_next v_pend v_ph v_rf v_de v_keys]. rewrite P. cbn [cw]. lia.
  - (* VWait *) destruct (v_ph s) as [| | |r cur| |r cur|] eqn:P; try discriminate E.
    + destruct cur as [[k [|t w]]|]; [| |destruct r as [|k r]].
      * assert (X : s' = mkEv (v_keys s) (v_unique s) (v_pool s) (PhRWait r None) (v_task s) (v_ev s) (v_next s) (v_pend s) (upd (v_rf s) k []) (v_de s) (v_log s)) by (destruct r; now injection E as <-).
        subst s'. unfold weight, phw, tasks. cbn [v_task v_next v_pend v_ph v_rf v_de v_keys]. rewrite P. cbn [cw length]. pose proof (lists_clear (v_rf s) k r). lia.
      * assert (X : ready_fut (v_task s t) = true /\ s' = with_ph s (PhRWait r (Some (k, w))) []) by (destruct r; destruct (ready_fut (v_task s t)); try discriminate E; now injection E as <-).
        destruct X as [_ ->]. unfold weight, phw, tasks, with_ph. cbn [v_task v_next v_pend v_ph v_rf v_de v_keys]. rewrite P. cbn [cw length]. lia.
      * injection E as <-. unfold weight, phw, tasks, with_ph. cbn [v_task v_next v_pend v_ph v_rf v_de v_keys]. rewrite P. cbn [cw]. unfold lists. cbn. lia.
      * injection E as <-. unfold weight, phw, tasks, with_ph. cbn [v_task v_next v_pend v_ph v_rf v_de v_keys]. rewrite P. cbn [cw]. unfold lists. cbn [map list_sum fold_right]. unfold list_sum. lia.
    + destruct cur as [[k [|t w]]|]; [| |destruct r as [|k r]].
      * assert (X : s' = mkEv (v_keys s) (v_unique s) (v_pool s) (PhDWait r None) (v_task s) (v_ev s) (v_next s) (v_pend s) (upd (v_rf s) k []) (upd (v_de s) k []) (v_log s)) by (destruct r; now injection E as <-).
        subst s'. unfold weight, phw, tasks. cbn [v_task v_next v_pend v_ph v_rf v_de v_keys]. rewrite P. cbn [cw length]. pose proof (lists_clear (v_de s) k r). lia.
      * assert (X : ready_fut (v_task s t) = true /\ s' = with_ph s (PhDWait r (Some (k, w))) []) by (destruct r; destruct (ready_fut (v_task s t)); try discriminate E; now injection E as <-).
        destruct X as [_ ->]. unfold weight, phw, tasks, with_ph. cbn [v_task v_next v_pend v_ph v_rf v_de v_keys]. rewrite P. cbn [cw length]. lia.
      * injection E as <-. unfold weight, phw, tasks, with_ph. cbn [v_task v_next v_pend v_ph v_rf v_de v_keys]. rewrite P. cbn [cw]. unfold lists. cbn. lia.
      * injection E as <-. unfold weight, phw, tasks, with_ph. cbn [v_task v_next v_pend v_ph v_rf v_de v_keys]. rewrite P. cbn [cw]. unfold lists. cbn [map list_sum fold_right]. unfold list_sum. lia.
  - (* VPoolDown *) destruct (v_ph s) eqn:P; try discriminate E. destruct (v_unique s).
    + destruct (existsb _ _); [discriminate E|]. injection E as <-. unfold weight, phw. cbn [v_task v_next v_pend v_ph v_rf v_de v_keys]. rewrite P. cbn [cw].
      enough (tasks (mkEv (v_keys s) true false (PhDWait (v_keys s) None) (fun t => match v_task s t with TQueued => TDropped | x => x end) (v_ev s) (v_next s) (v_pend s) (v_rf s) (v_de s) (v_log s)) <= tasks s) by lia.
      unfold tasks. cbn [v_task v_next]. apply sum_le. intros x _. destruct (v_task s x); cbn; lia.
    + injection E as <-. unfold weight, phw, tasks, with_ph. cbn [v_task v_next v_pend v_ph v_rf v_de v_keys]. rewrite P. cbn [cw]. lia.
  - (* VStore *) destruct (find _ (v_pend s)) as [[t0 g]|] eqn:F; [|discriminate E]. apply pend_len in F.
    destruct (v_ph s) as [| | |r cur| |r cur|] eqn:P; try discriminate E; destruct (locked _ _ _) in E; try discriminate E; injection E as <-;
      unfold weight, phw, tasks; cbn [v_task v_next v_pend v_ph v_rf v_de v_keys]; rewrite P; try lia.
    + destruct (strat_eqb g RunFinish); [|lia]. pose proof (lists_app (v_rf s) (v_ev s t) t (v_keys s) KN). lia.
    + destruct C as [C _]. apply NoDup_app_iff in C as (_ & C & _). destruct (strat_eqb g RunFinish); [|lia]. pose proof (lists_app (v_rf s) (v_ev s t) t r C). lia.
    + destruct (strat_eqb g OnDestroy); [|lia]. pose proof (lists_app (v_de s) (v_ev s t) t (v_keys s) KN). lia.
    + destruct C as [C _]. apply NoDup_app_iff in C as (_ & C & _). destruct (strat_eqb g OnDestroy); [|lia]. pose proof (lists_app (v_de s) (v_ev s t) t r C). lia.
  - (* VStart *) destruct (v_task s t) eqn:T; try discriminate E. assert (L : t < v_next s) by (apply (a_fresh s A); congruence).
    assert (X : list_sum (map (fun x => tw (upd (v_task s) t TRunning x)) (seq 0 (v_next s))) < tasks s).
    { unfold tasks. apply (sum_upd _ _ t); [exact L|rewrite upd_same, T; cbn; lia|]. intros x N. now rewrite upd_other by exact N. }
    destruct (v_ph s) eqn:P; try discriminate E; injection E as <-; unfold weight, phw; cbn [v_task v_next v_pend v_ph v_rf v_de v_keys]; rewrite P; unfold tasks at 1; cbn [v_task v_next]; lia.
  - (* VFinish *) destruct (v_task s t) eqn:T; try discriminate E. assert (L : t < v_next s) by (apply (a_fresh s A); congruence).
    assert (X : list_sum (map (fun x => tw (upd (v_task s) t TDone x)) (seq 0 (v_next s))) < tasks s).
    { unfold tasks. apply (sum_upd _ _ t); [exact L|rewrite upd_same, T; cbn; lia|]. intros x N. now rewrite upd_other by exact N. }
    destruct (v_ph s) eqn:P; try discriminate E; injection E as <-; unfold weight, phw; cbn [v_task v_next v_pend v_ph v_rf v_de v_keys]; rewrite P; unfold tasks at 1; cbn [v_task v_next]; lia.
Qed.

(** And it does not go on forever: once no more calls are made, only so many steps remain. So run() and destroy() return, every notification is stored and
    every trigger executed, if the threads go on. *)
Theorem C120_ends : forall keys u ls s, NoDup keys -> ev_run (ev_new keys u) ls = ENext s ->
  exists n, forall ls' s', Forall no_call ls' -> ev_run s ls' = ENext s' -> length ls' <= n.
Proof.
  intros keys u ls s N R. exists (weight s). destruct (reach_inv _ _ _ _ N R) as [A B]. clear R. intros ls'. revert s A B. induction ls' as [|l r IH]; intros s A B s' F E; cbn [length]; [lia|].
  cbn [ev_run] in E. destruct (ev_step s l) as [s1| |] eqn:E1; try discriminate E. inversion F as [|? ? F1 F2]; subst.
  pose proof (weight_step _ _ _ A B F1 E1). specialize (IH s1 (A_step _ _ _ A E1) (B_step _ _ _ A B E1) s' F2 E). lia.
Qed.
Print Assumptions C120_ends.

(** Both together: from every reachable state inside such a call there is a way on which only this call and the pool move, and it ends with the call having returned. *)
Theorem C120_returns : forall keys u ls s, NoDup keys -> ev_run (ev_new keys u) ls = ENext s -> inside (v_ph s) ->
  exists ls' s', Forall own_step ls' /\ ev_run s ls' = ENext s' /\ (v_ph s' = PhReady \/ v_ph s' = PhOff).
Proof.
  intros keys u ls s N R I. remember (weight s) as n eqn:W. revert ls s W R I. induction n as [n IH] using lt_wf_ind. intros ls s W R I.
  destruct (C120_never_stuck _ _ _ _ N R I) as (l & s1 & O & E1). destruct (reach_inv _ _ _ _ N R) as [A B].
  assert (NC : no_call l) by (destruct l; auto; destruct O). pose proof (weight_step _ _ _ A B NC E1) as L.
  assert (R1 : ev_run (ev_new keys u) (ls ++ [l]) = ENext s1).
  { clear -R E1. revert R. generalize (ev_new keys u) as s0. induction ls as [|a ls IH]; intros s0 R; cbn [ev_run app] in *; [injection R as ->; now rewrite E1|]. destruct (ev_step s0 a); try discriminate R. now apply IH. }
  assert (D : inside (v_ph s1) \/ v_ph s1 = PhReady \/ v_ph s1 = PhOff).
  { destruct (v_ph s) as [| | |r cur| |r cur|] eqn:P; try (now destruct I); destruct l; try (now destruct O); cbn [ev_step] in E1; rewrite P in E1;
      repeat match type of E1 with context [match ?x with _ => _ end] => destruct x eqn:?; try discriminate E1 end; inversion E1; subst s1; cbn [with_ph v_ph inside]; auto. }
  destruct D as [D|D].
  - destruct (IH (weight s1) ltac:(lia) (ls ++ [l]) s1 eq_refl R1 D) as (ls' & s' & F & E & Q). exists (l :: ls'), s'. split; [now constructor|]. split; [cbn [ev_run]; now rewrite E1|exact Q].
  - exists [l], s1. split; [now constructor|]. split; [cbn [ev_run]; now rewrite E1|exact D].
Qed.
Print Assumptions C120_returns.

(** A run waiting for a trigger that is still with the pool, while another notify has not stored its future yet. *)
Example C120_nonvacuous : exists s, ev_run (ev_new [7; 9] true) [VInit; VRun; VNotify 7 false RunFinish; VStore 0; VNotify 7 false RunFinish; VElems; VWait] = ENext s /\
  inside (v_ph s) /\ v_ph s = PhRWait [9] (Some (7, [0])) /\ v_task s 0 = TQueued /\ v_pend s = [(1, RunFinish)] /\ ev_step s VWait = ENo /\ ev_step s (VStore 1) = ENo.
Proof. eexists. split; [vm_compute; reflexivity|]. vm_compute. auto 10. Qed.

(** The thread that notifies is made to wait exactly while run (or destroy) waits for the same event with the same strategy; in every other state its call can end, and the future is where it belongs. *)
Definition made_to_wait (s : evst) (t : nat) (g : strat) : Prop :=
  (g = RunFinish /\ exists r w, v_ph s = PhRWait r (Some (v_ev s t, w))) \/ (g = OnDestroy /\ exists r w, v_ph s = PhDWait r (Some (v_ev s t, w))).
Theorem C120_notifier : forall keys u ls s t g, NoDup keys -> ev_run (ev_new keys u) ls = ENext s -> v_ph s <> PhGone -> In (t, g) (v_pend s) ->
  (made_to_wait s t g <-> ev_step s (VStore t) = ENo) /\
  (~ made_to_wait s t g -> exists s', ev_step s (VStore t) = ENext s' /\ v_ph s' = v_ph s /\ ~ In t (map fst (v_pend s')) /\
     (forall k, v_rf s' k = if strat_eqb g RunFinish && Nat.eqb k (v_ev s t) then v_rf s k ++ [t] else v_rf s k) /\
     (forall k, v_de s' k = if strat_eqb g OnDestroy && Nat.eqb k (v_ev s t) then v_de s k ++ [t] else v_de s k)).
Proof.
  intros keys u ls s t g N R G P. destruct (reach_inv _ _ _ _ N R) as [A _]. pose proof (a_pnd _ A) as ND.
  assert (F : find (fun p => Nat.eqb (fst p) t) (v_pend s) = Some (t, g)).
  { clear - ND P. induction (v_pend s) as [|[a b] r IH]; [easy|]. cbn [map fst] in ND. inversion ND as [|? ? N1 N2]; subst. cbn [find fst]. destruct (Nat.eqb_spec a t) as [->|D].
    - destruct P as [P|P]; [now injection P as ->|]. exfalso. apply N1. now apply (in_map fst) in P.
    - destruct P as [P|P]; [congruence|]. now apply IH. }
  assert (L : made_to_wait s t g <-> locked (v_ph s) (v_ev s t) g = true).
  { unfold made_to_wait, locked. split.
    - intros [[-> (r & w & ->)]|[-> (r & w & ->)]]; apply Nat.eqb_refl.
    - destruct (v_ph s) as [| | |r [[k w]|]| |r [[k w]|]|]; try discriminate; destruct g; try discriminate; intros H; apply Nat.eqb_eq in H; subst k; eauto. }
  destruct (locked (v_ph s) (v_ev s t) g) eqn:E.
  - assert (S : ev_step s (VStore t) = ENo) by (cbn [ev_step]; rewrite F, E; destruct (v_ph s); easy). rewrite S. split; [tauto|]. intros H. exfalso. tauto.
  - assert (S : exists s', ev_step s (VStore t) = ENext s' /\ v_ph s' = v_ph s /\ v_pend s' = filter (fun p => negb (Nat.eqb (fst p) t)) (v_pend s) /\
       v_rf s' = (if strat_eqb g RunFinish then upd (v_rf s) (v_ev s t) (v_rf s (v_ev s t) ++ [t]) else v_rf s) /\ v_de s' = (if strat_eqb g OnDestroy then upd (v_de s) (v_ev s t) (v_de s (v_ev s t) ++ [t]) else v_de s)).
    { cbn [ev_step]. rewrite F, E. destruct (v_ph s); try (eexists; split; [reflexivity|]; repeat split). now destruct G. }
    destruct S as (s' & S & Sp & Sd & Sr & Se). rewrite S. split; [split; [intros H; apply L in H; discriminate|discriminate]|]. intros _. exists s'. split; [easy|]. split; [easy|]. rewrite Sd, Sr, Se. split; [|split].
    + intros H. apply in_map_iff in H as (p & <- & H). apply filter_In in H as [_ H]. rewrite Nat.eqb_refl in H. discriminate.
    + intros k. destruct (strat_eqb g RunFinish); [|easy]. cbn [andb]. destruct (Nat.eqb_spec k (v_ev s t)) as [->|D]; [apply upd_same|now apply upd_other].
    + intros k. destruct (strat_eqb g OnDestroy); [|easy]. cbn [andb]. destruct (Nat.eqb_spec k (v_ev s t)) as [->|D]; [apply upd_same|now apply upd_other].
Qed.
Print Assumptions C120_notifier.
(** Event 7 is waited for at the end of a run, of destroy; a second notification of it is held up then, one of event 8 is not. *)
Example C120_notifier_case : exists s, ev_run (ev_new [7; 8] false) [VInit; VRun; VNotify 7 false RunFinish; VStore 0; VNotify 7 false RunFinish; VNotify 8 false RunFinish; VElems; VWait] = ENext s /\
  In (1, RunFinish) (v_pend s) /\ made_to_wait s 1 RunFinish /\ In (2, RunFinish) (v_pend s) /\ ~ made_to_wait s 2 RunFinish.
Proof.
  eexists. split; [vm_compute; reflexivity|]. unfold made_to_wait. cbn. split; [auto|]. split; [left; eauto|]. split; [auto|]. intros [[_ (r & w & H)]|[H _]]; discriminate.
Qed.
