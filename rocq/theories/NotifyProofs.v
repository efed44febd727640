(** Waiting for events on finitely many threads: invariants, a weight, and the state that never ends. *)
From Verif Require Import EventModel NotifyModel.
Local Open Scope nat_scope.
Local Open Scope list_scope.

(** the task of a trigger *)
Definition trig (x : ntask) : Prop := x = KQueued [] \/ x = KRun [] None \/ x = KDone.
(** a task that may still have to wait for the lock of an event *)
Definition risky (x : ntask) : bool :=
  match x with KQueued r => existsb (fun p => is_rf (snd p)) r | KRun r h => existsb (fun p => is_rf (snd p)) r || match h with Some _ => true | None => false end | _ => false end.
Definition risks (s : nst) : nat := length (filter (fun t => risky (n_task s t)) (seq 0 (n_next s))).
Definition adds (l : nlabel) : nat := match l with NLeft r => if existsb (fun p => is_rf (snd p)) r then 1 else 0 | _ => 0 end.

Lemma filter_le {A} (f g : A -> bool) l : (forall x, In x l -> f x = true -> g x = true) -> length (filter f l) <= length (filter g l).
Proof.
  induction l as [|x l IH]; intros H; [easy|]. cbn. specialize (IH (fun y Hy => H y (or_intror Hy))). destruct (f x) eqn:F.
  - rewrite (H x (or_introl eq_refl) F). cbn. lia.
  - destruct (g x); cbn; lia.
Qed.
Lemma filter_more {A} (f g : A -> bool) l : length (filter g l) < length (filter f l) -> exists x, In x l /\ f x = true /\ g x = false.
Proof.
  induction l as [|x l IH]; cbn; [lia|]. intros H. destruct (f x) eqn:F, (g x) eqn:G; cbn in H; try (destruct IH as (y & Hy & ?); [lia|]; exists y; auto); try (exists x; auto).
Qed.
Lemma seq_S n : seq 0 (S n) = seq 0 n ++ [n].
Proof. now rewrite seq_S. Qed.

Record NI (s : nst) : Prop := {
  ni_none : forall t, n_next s <= t -> n_task s t = KNone;
  ni_rf : forall k n, In n (n_rf s k) -> trig (n_task s n);
  ni_hold : forall t r k n, n_task s t = KRun r (Some (k, n)) -> trig (n_task s n);
  ni_cur : forall todo k w n, n_ph s = NWait todo (Some (k, w)) -> In n w -> trig (n_task s n) }.
Lemma trig_lt s n : NI s -> trig (n_task s n) -> n < n_next s.
Proof. intros I T. destruct (le_lt_dec (n_next s) n) as [H|H]; [|easy]. rewrite (ni_none _ I n H) in T. destruct T as [T|[T|T]]; discriminate. Qed.
Lemma live_lt s t : NI s -> n_task s t <> KNone -> t < n_next s.
Proof. intros I T. destruct (le_lt_dec (n_next s) t) as [H|H]; [|easy]. now destruct (T (ni_none _ I t H)). Qed.

Section K.
Variables (keys : list nat) (W : nat).

Lemma NI_set s t x : NI s -> n_task s t <> KNone -> (trig (n_task s t) -> trig x) -> (forall r k n, x = KRun r (Some (k, n)) -> trig (n_task s n) /\ n <> t) -> NI (n_set s t x).
Proof.
  intros I L T H. pose proof (live_lt s t I L) as LT.
  assert (K : forall n, trig (n_task s n) -> trig (upd (n_task s) t x n)).
  { intros n Hn. destruct (Nat.eq_dec n t) as [->|D]; [rewrite upd_same; auto|now rewrite upd_other]. }
  split; cbn [n_set n_ph n_next n_task n_rf].
  - intros u Hu. rewrite upd_other by lia. now apply (ni_none _ I).
  - intros k n Hn. apply K. now apply (ni_rf _ I k).
  - intros u r k n E. apply K. destruct (Nat.eq_dec u t) as [->|D]; [rewrite upd_same in E; now destruct (H r k n E)|]. rewrite upd_other in E by easy. now apply (ni_hold _ I u r k).
  - intros todo k w n P Hn. apply K. now apply (ni_cur _ I todo k w).
Qed.
Lemma NI_commit s r : NI s -> NI (n_commit s r).
Proof.
  intros I. assert (K : forall n, trig (n_task s n) -> trig (upd (n_task s) (n_next s) (KQueued r) n)).
  { intros n Hn. pose proof (trig_lt s n I Hn). now rewrite upd_other by lia. }
  split; cbn [n_commit n_ph n_next n_task n_rf].
  - intros u Hu. rewrite upd_other by lia. apply (ni_none _ I). lia.
  - intros k n Hn. apply K. now apply (ni_rf _ I k).
  - intros u q k n E. apply K. destruct (Nat.eq_dec u (n_next s)) as [->|D]; [rewrite upd_same in E; discriminate|]. rewrite upd_other in E by easy. now apply (ni_hold _ I u q k).
  - intros todo k w n P Hn. apply K. now apply (ni_cur _ I todo k w).
Qed.
Lemma NI_store s k n : NI s -> trig (n_task s n) -> NI (n_store s k n).
Proof.
  intros I T. split; cbn [n_store n_ph n_next n_task n_rf]; [apply (ni_none _ I)| |apply (ni_hold _ I)|apply (ni_cur _ I)].
  intros k' m Hm. destruct (Nat.eq_dec k' k) as [->|D]; [rewrite upd_same, in_app_iff in Hm; destruct Hm as [Hm|[<-|[]]]; [now apply (ni_rf _ I k)|easy]|]. rewrite upd_other in Hm by easy. now apply (ni_rf _ I k').
Qed.
Lemma NI_step s l s' : NI s -> nstep keys W s l = Some s' -> NI s'.
Proof.
  intros I E. destruct l as [k g|r| | |t|t|t|t]; cbn [nstep] in E.
  - destruct (n_ph s); try discriminate. destruct (memb k keys); [|now injection E as <-]. injection E as <-. destruct (is_rf g); [|now apply NI_commit]. apply NI_store; [now apply NI_commit|].
    cbn [n_commit n_task]. rewrite upd_same. now left.
  - destruct (n_ph s); try discriminate. injection E as <-. now apply NI_commit.
  - destruct (n_ph s); try discriminate. injection E as <-. destruct I. split; cbn; auto. discriminate.
  - destruct (n_ph s) as [|todo [[k [|t w]]|]|] eqn:P; try discriminate.
    + destruct todo; injection E as <-; (split; cbn [n_ph n_next n_task n_rf]; [apply (ni_none _ I)| |apply (ni_hold _ I)|discriminate]);
        (intros k' m Hm; destruct (Nat.eq_dec k' k) as [->|D]; [rewrite upd_same in Hm; now destruct Hm|]; rewrite upd_other in Hm by easy; now apply (ni_rf _ I k')).
    + assert (E' : match n_task s t with KDone => Some (n_with s (NWait todo (Some (k, w)))) | _ => None end = Some s') by (destruct todo; exact E). clear E. destruct (n_task s t); try discriminate. injection E' as <-.
      pose proof (ni_cur _ I) as C. destruct I as [I1 I2 I3 _]. split; cbn [n_with n_ph n_next n_task n_rf]; auto. intros todo' k' w' n Q Hn. injection Q as <- <- <-. apply (C todo k (t :: w) n P). now right.
    + destruct todo as [|k r]; injection E as <-; (pose proof (ni_rf _ I) as R; destruct I as [I1 I2 I3 _]; split; cbn [n_with n_ph n_next n_task n_rf]; auto; try discriminate).
      intros todo' k' w' n Q Hn. injection Q as <- <- <-. now apply (R k).
  - destruct (n_task s t) as [|r| |] eqn:T; try discriminate. destruct (busy s <? W); [|discriminate]. injection E as <-. apply NI_set; try easy; rewrite T; try easy.
    intros [H|[H|H]]; try discriminate. injection H as ->. right. now left.
  - destruct (n_task s t) as [| |[|[k g] r] [h|]|] eqn:T; try discriminate. pose proof (live_lt s t I ltac:(rewrite T; easy)) as LT. destruct (memb k keys); injection E as <-.
    + apply NI_set; cbn [n_commit n_task]; [now apply NI_commit|now rewrite upd_other, T by lia|rewrite upd_other, T by lia; intros [H|[H|H]]; discriminate|].
      intros r' k' n' H. destruct (is_rf g); [|discriminate]. injection H as <- <- <-. rewrite upd_same. split; [now left|lia].
    + apply NI_set; try easy; rewrite T; [easy|intros [H|[H|H]]; discriminate].
  - destruct (n_task s t) as [| |r [[k n]|]|] eqn:T; try discriminate. destruct (held s k); [discriminate|]. injection E as <-. pose proof (ni_hold _ I t r k n T) as Tn.
    apply NI_set; cbn [n_store n_task]; [now apply NI_store|now rewrite T|rewrite T; intros [H|[H|H]]; discriminate|easy].
  - destruct (n_task s t) as [| |[|] [|]|] eqn:T; try discriminate. injection E as <-. apply NI_set; try easy; rewrite T; [easy|]. intros _. right. now right.
Qed.

Lemma risks_set s t x : (risky x = true -> risky (n_task s t) = true) -> risks (n_set s t x) <= risks s.
Proof.
  intros H. apply filter_le. intros u _. cbn [n_set n_task]. destruct (Nat.eq_dec u t) as [->|D]; [rewrite upd_same|rewrite upd_other by easy]; auto.
Qed.
Lemma risks_commit s r : risks (n_commit s r) <= risks s + (if risky (KQueued r) then 1 else 0).
Proof.
  unfold risks. cbn [n_commit n_task n_next]. rewrite seq_S, filter_app, app_length. apply Nat.add_le_mono.
  - apply filter_le. intros u Hu. apply in_seq in Hu. rewrite upd_other by lia. easy.
  - cbn [filter]. rewrite upd_same. destruct (risky (KQueued r)); cbn; lia.
Qed.
Lemma risks_step s l s' : NI s -> nstep keys W s l = Some s' -> risks s' <= risks s + adds l.
Proof.
  intros I E. destruct l as [k g|r| | |t|t|t|t]; cbn [nstep adds] in *.
  - destruct (n_ph s); try discriminate. destruct (memb k keys); [|injection E as <-; lia]. injection E as <-. pose proof (risks_commit s []). cbn in H. destruct (is_rf g); exact H.
  - destruct (n_ph s); try discriminate. injection E as <-. apply risks_commit.
  - destruct (n_ph s); try discriminate. injection E as <-. unfold risks. cbn. lia.
  - assert (H : n_task s' = n_task s /\ n_next s' = n_next s).
    { destruct (n_ph s) as [|[|? ?] [[? [|t ?]]|]|]; try discriminate; try (injection E as <-; easy); destruct (n_task s t); try discriminate; injection E as <-; easy. }
    destruct H as [H1 H2]. unfold risks. rewrite H1, H2. lia.
  - destruct (n_task s t) as [|r| |] eqn:T; try discriminate. destruct (busy s <? W); [|discriminate]. injection E as <-. rewrite Nat.add_0_r. apply risks_set. rewrite T. cbn. now rewrite orb_false_r.
  - destruct (n_task s t) as [| |[|[k g] r] [h|]|] eqn:T; try discriminate. pose proof (live_lt s t I ltac:(rewrite T; easy)) as LT. destruct (memb k keys); injection E as <-.
    + pose proof (risks_commit s []) as H. cbn [risky existsb] in H. etransitivity; [|exact H]. apply risks_set. cbn [n_commit n_task]. rewrite upd_other, T by lia. cbn. destruct (is_rf g); cbn; [easy|]. now rewrite !orb_false_r.
    + rewrite Nat.add_0_r. apply risks_set. rewrite T. cbn. rewrite !orb_false_r. intros ->. apply orb_true_r.
  - destruct (n_task s t) as [| |r [[k n]|]|] eqn:T; try discriminate. destruct (held s k); [discriminate|]. injection E as <-. rewrite Nat.add_0_r.
    change (risks s) with (risks (n_store s k n)). apply risks_set. cbn [n_store n_task]. rewrite T. cbn. intros _. apply orb_true_r.
  - destruct (n_task s t) as [| |[|] [|]|] eqn:T; try discriminate. injection E as <-. rewrite Nat.add_0_r. apply risks_set. discriminate.
Qed.
Lemma run_inv ls : forall s s', NI s -> nrun keys W s ls = Some s' -> NI s' /\ risks s' <= risks s + list_sum (map adds ls).
Proof.
  induction ls as [|l ls IH]; intros s s' I E; cbn [nrun] in E; [injection E as <-; cbn; split; [easy|lia]|]. destruct (nstep keys W s l) as [s1|] eqn:E1; [|discriminate].
  destruct (IH s1 s' (NI_step s l s1 I E1) E) as [I' R]. pose proof (risks_step s l s1 I E1). split; [easy|]. cbn [map list_sum fold_right]. change (fold_right Nat.add 0 (map adds ls)) with (list_sum (map adds ls)). lia.
Qed.
Lemma NI_new : NI n_new.
Proof. split; cbn; try easy. Qed.

Lemma progress s todo cur : NI s -> n_ph s = NWait todo cur -> risks s < W -> exists l s', (l = NMain \/ exists t, l = NStart t \/ l = NCommit t \/ l = NFinish t) /\ nstep keys W s l = Some s'.
Proof.
  intros I P R.
  assert (M : forall s', nstep keys W s NMain = Some s' -> exists l s', (l = NMain \/ exists t, l = NStart t \/ l = NCommit t \/ l = NFinish t) /\ nstep keys W s l = Some s') by (intros s' H; exists NMain, s'; auto).
  destruct cur as [[k [|n w]]|].
  - eapply M. cbn [nstep]. rewrite P. destruct todo; reflexivity.
  - destruct (ni_cur _ I todo k (n :: w) n P (or_introl eq_refl)) as [T|[T|T]].
    + destruct (busy s <? W) eqn:B.
      * exists (NStart n). eexists. split; [right; exists n; auto|]. cbn [nstep]. rewrite T, B. reflexivity.
      * apply Nat.ltb_ge in B. destruct (filter_more (fun t => is_run (n_task s t)) (fun t => risky (n_task s t)) (seq 0 (n_next s))) as (t & _ & F & G); [unfold busy, risks in *; lia|].
        destruct (n_task s t) as [| |r h|] eqn:Tt; try discriminate. destruct h; [cbn in G; rewrite orb_true_r in G; discriminate|]. destruct r as [|[k' g] r].
        -- exists (NFinish t). eexists. split; [right; exists t; auto|]. cbn [nstep]. rewrite Tt. reflexivity.
        -- exists (NCommit t). cbn [nstep]. rewrite Tt. destruct (memb k' keys); eexists; (split; [right; exists t; auto|reflexivity]).
    + exists (NFinish n). eexists. split; [right; exists n; auto|]. cbn [nstep]. rewrite T. reflexivity.
    + eapply M. cbn [nstep]. rewrite P, T. destruct todo; reflexivity.
  - destruct todo; eapply M; cbn [nstep]; rewrite P; reflexivity.
Qed.

(** * A weight *)
Definition weight (x : ntask) : nat := match x with KQueued r => 2 + 5 * length r | KRun r h => 1 + 5 * length r + match h with Some _ => 2 | None => 0 end | _ => 0 end.
Definition stored (f : nat -> list nat) (l : list nat) : nat := list_sum (map (fun k => length (f k)) l).
Definition left_main (s : nst) : nat :=
  match n_ph s with
  | NElems => 2 + 2 * length keys + stored (n_rf s) keys
  | NWait todo None => 1 + 2 * length todo + stored (n_rf s) todo
  | NWait todo (Some (_, w)) => 2 + length w + 2 * length todo + stored (n_rf s) todo
  | NRet => 0
  end.
Definition total (s : nst) : nat := list_sum (map (fun t => weight (n_task s t)) (seq 0 (n_next s))) + left_main s.
Definition todo_ok (s : nst) : Prop := NoDup keys /\ match n_ph s with NWait todo _ => NoDup todo | _ => True end.

Lemma sum_upd (f : nat -> ntask) t x : forall l, NoDup l -> In t l -> list_sum (map (fun u => weight (upd f t x u)) l) + weight (f t) = list_sum (map (fun u => weight (f u)) l) + weight x.
Proof.
  assert (Q : forall l, ~ In t l -> map (fun u => weight (upd f t x u)) l = map (fun u => weight (f u)) l).
  { intros l H. apply map_ext_in. intros u Hu. rewrite upd_other; [easy|]. intros ->. contradiction. }
  induction l as [|u l IH]; intros N H; [easy|]. inversion N as [|? ? N1 N2]; subst. cbn [map list_sum fold_right].
  change (fold_right Nat.add 0 ?l) with (list_sum l). destruct H as [->|H].
  - rewrite upd_same, (Q l N1). lia.
  - specialize (IH N2 H). rewrite (upd_other _ _ _ u) by (intros ->; contradiction). lia.
Qed.
Lemma stored_upd f k v l : NoDup l -> stored (upd f k v) l <= stored f l + (length v - length (f k)).
Proof.
  assert (Q : forall l, ~ In k l -> map (fun u => length (upd f k v u)) l = map (fun u => length (f u)) l).
  { intros m H. apply map_ext_in. intros u Hu. rewrite upd_other; [easy|]. intros ->. contradiction. }
  unfold stored. induction l as [|u l IH]; intros N; [cbn; lia|]. inversion N as [|? ? N1 N2]; subst. cbn [map list_sum fold_right]. change (fold_right Nat.add 0 ?l) with (list_sum l).
  destruct (Nat.eq_dec u k) as [->|D].
  - rewrite upd_same, (Q l N1). lia.
  - rewrite upd_other by easy. specialize (IH N2). lia.
Qed.
Lemma total_set s t x : NI s -> n_task s t <> KNone -> total (n_set s t x) + weight (n_task s t) = total s + weight x.
Proof.
  intros I L. pose proof (live_lt s t I L). unfold total. cbn [n_set n_task n_next]. pose proof (sum_upd (n_task s) t x (seq 0 (n_next s)) (seq_NoDup _ _) ltac:(apply in_seq; lia)) as Q.
  change (left_main (n_set s t x)) with (left_main s). lia.
Qed.
Lemma total_commit s r : total (n_commit s r) = total s + 2 + 5 * length r.
Proof.
  unfold total. cbn [n_commit n_task n_next]. rewrite seq_S, map_app, list_sum_app. change (left_main (n_commit s r)) with (left_main s).
  replace (list_sum (map (fun t => weight (upd (n_task s) (n_next s) (KQueued r) t)) [n_next s])) with (2 + 5 * length r) by (cbn; rewrite upd_same; cbn [weight]; lia).
  rewrite (map_ext_in (fun t => weight (upd (n_task s) (n_next s) (KQueued r) t)) (fun t => weight (n_task s t))); [lia|].
  intros u Hu. apply in_seq in Hu. now rewrite upd_other by lia.
Qed.
Lemma total_store s k n : todo_ok s -> total (n_store s k n) <= total s + 1.
Proof.
  intros [N O]. unfold total. change (n_task (n_store s k n)) with (n_task s). change (n_next (n_store s k n)) with (n_next s).
  assert (left_main (n_store s k n) <= left_main s + 1); [|lia]. unfold left_main. cbn [n_store n_ph n_rf].
  assert (Q : forall l, NoDup l -> stored (upd (n_rf s) k (n_rf s k ++ [n])) l <= stored (n_rf s) l + 1) by (intros l H; pose proof (stored_upd (n_rf s) k (n_rf s k ++ [n]) l H) as G; rewrite app_length in G; cbn [length] in G; lia).
  destruct (n_ph s) as [|todo [[? ?]|]|]; [specialize (Q keys N)|specialize (Q todo O)|specialize (Q todo O)|]; lia.
Qed.
Definition internal (l : nlabel) : bool := match l with NCall _ _ | NLeft _ => false | _ => true end.
Lemma total_step s l s' : NI s -> todo_ok s -> internal l = true -> nstep keys W s l = Some s' -> total s' < total s.
Proof.
  intros I O L E. destruct l as [k g|r| | |t|t|t|t]; try discriminate; cbn [nstep] in E.
  - destruct (n_ph s) eqn:P; try discriminate. injection E as <-. unfold total. cbn [n_with n_task n_next]. unfold left_main. rewrite P. cbn [n_with n_ph n_rf]. lia.
  - destruct O as [_ O]. destruct (n_ph s) as [|todo [[k [|t w]]|]|] eqn:P; try discriminate.
    + assert (E' : Some (mkN (NWait todo None) (n_next s) (n_task s) (upd (n_rf s) k [])) = Some s') by (destruct todo; exact E). injection E' as <-. unfold total. cbn [n_task n_next]. unfold left_main. rewrite P. cbn [n_with n_ph n_rf].
      pose proof (stored_upd (n_rf s) k [] todo O). cbn [length] in *. lia.
    + assert (E' : match n_task s t with KDone => Some (n_with s (NWait todo (Some (k, w)))) | _ => None end = Some s') by (destruct todo; exact E). clear E. destruct (n_task s t); try discriminate. injection E' as <-.
      unfold total. cbn [n_with n_task n_next]. unfold left_main. rewrite P. cbn [n_with n_ph n_rf length]. lia.
    + destruct todo as [|k r]; injection E as <-; unfold total; cbn [n_with n_task n_next]; unfold left_main; rewrite P; cbn [n_with n_ph n_rf length]; [lia|].
      unfold stored. cbn [map list_sum fold_right]. change (fold_right Nat.add 0 ?l) with (list_sum l). lia.
  - destruct (n_task s t) as [|r| |] eqn:T; try discriminate. destruct (busy s <? W); [|discriminate]. injection E as <-. pose proof (total_set s t (KRun r None) I ltac:(rewrite T; easy)) as Q. rewrite T in Q. cbn [weight] in Q. lia.
  - destruct (n_task s t) as [| |[|[k g] r] [h|]|] eqn:T; try discriminate. pose proof (live_lt s t I ltac:(rewrite T; easy)) as LT. destruct (memb k keys); injection E as <-.
    + set (x := KRun r (if is_rf g then Some (k, n_next s) else None)). assert (T' : n_task (n_commit s []) t = KRun ((k, g) :: r) None) by (cbn [n_commit n_task]; now rewrite upd_other by lia).
      pose proof (total_set (n_commit s []) t x (NI_commit s [] I) ltac:(rewrite T'; easy)) as Q. rewrite T', total_commit in Q. unfold x in *. cbn [weight length] in Q. destruct (is_rf g); lia.
    + pose proof (total_set s t (KRun r None) I ltac:(rewrite T; easy)) as Q. rewrite T in Q. cbn [weight length] in Q. lia.
  - destruct (n_task s t) as [| |r [[k n]|]|] eqn:T; try discriminate. destruct (held s k); [discriminate|]. injection E as <-.
    pose proof (total_set (n_store s k n) t (KRun r None) (NI_store s k n I (ni_hold _ I t r k n T)) ltac:(cbn; rewrite T; easy)) as Q. cbn [n_store n_task] in Q. rewrite T in Q. cbn [weight] in Q.
    pose proof (total_store s k n O). unfold n_store in *. lia.
  - destruct (n_task s t) as [| |[|] [|]|] eqn:T; try discriminate. injection E as <-. pose proof (total_set s t KDone I ltac:(rewrite T; easy)) as Q. rewrite T in Q. cbn [weight length] in Q. lia.
Qed.
Lemma todo_step s l s' : todo_ok s -> nstep keys W s l = Some s' -> todo_ok s'.
Proof.
  intros [N O] E. split; [easy|]. destruct l as [k g|r| | |t|t|t|t]; cbn [nstep] in E.
  - destruct (n_ph s) eqn:P; try discriminate. destruct (memb k keys); injection E as <-; [destruct (is_rf g)|]; cbn; now rewrite P.
  - destruct (n_ph s) eqn:P; try discriminate. injection E as <-. cbn. now rewrite P.
  - destruct (n_ph s) eqn:P; try discriminate. injection E as <-. cbn. easy.
  - destruct (n_ph s) as [|[|k0 todo] [[k [|t w]]|]|] eqn:P; try discriminate; try (destruct (n_task s t); try discriminate); injection E as <-; cbn; try easy. now inversion O.
  - destruct (n_task s t); try discriminate. destruct (busy s <? W); [|discriminate]. injection E as <-. exact O.
  - destruct (n_task s t) as [| |[|[k g] r] [h|]|]; try discriminate. destruct (memb k keys); injection E as <-; exact O.
  - destruct (n_task s t) as [| |r [[k n]|]|]; try discriminate. destruct (held s k); [discriminate|]. injection E as <-. exact O.
  - destruct (n_task s t) as [| |[|] [|]|]; try discriminate. injection E as <-. exact O.
Qed.
Lemma todo_run ls : forall s s', todo_ok s -> nrun keys W s ls = Some s' -> todo_ok s'.
Proof. induction ls as [|l ls IH]; intros s s' O E; cbn in E; [now injection E as <-|]. destruct (nstep keys W s l) eqn:E1; [|discriminate]. apply (IH n); [now apply (todo_step s l)|easy]. Qed.
Lemma total_run ls : forall s s', NI s -> todo_ok s -> forallb internal ls = true -> nrun keys W s ls = Some s' -> total s' + length ls <= total s.
Proof.
  induction ls as [|l ls IH]; intros s s' I O F E; cbn in E; [injection E as <-; cbn; lia|]. destruct (nstep keys W s l) as [s1|] eqn:E1; [|discriminate]. cbn in F. apply andb_prop in F. destruct F as [F1 F2].
  pose proof (total_step s l s1 I O F1 E1). specialize (IH s1 s' (NI_step s l s1 I E1) (todo_step s l s1 O E1) F2 E). cbn. lia.
Qed.

(** * The state that never ends *)
Definition blocked (k : nat) (x : ntask) : bool := match x with KRun _ (Some (k', _)) => Nat.eqb k' k | _ => false end.
Definition Dead (s : nst) : Prop := exists r k n w, n_ph s = NWait r (Some (k, n :: w)) /\ n_task s n = KQueued [] /\ W <= length (filter (fun t => blocked k (n_task s t)) (seq 0 (n_next s))).
Lemma dead_step s l s' : NI s -> Dead s -> nstep keys W s l = Some s' -> Dead s'.
Proof.
  intros I (r & k & n & w & P & T & C) E.
  assert (B : W <= busy s).
  { etransitivity; [exact C|]. apply filter_le. intros t _. destruct (n_task s t); easy. }
  assert (K : forall t x, n_task s t <> KNone -> t <> n -> (blocked k (n_task s t) = true -> blocked k x = true) -> forall f, f = upd (n_task s) t x -> W <= length (filter (fun t => blocked k (f t)) (seq 0 (n_next s)))).
  { intros t x _ _ H f ->. etransitivity; [exact C|]. apply filter_le. intros u _. destruct (Nat.eq_dec u t) as [->|D]; [rewrite upd_same|rewrite upd_other by easy]; auto. }
  destruct l as [k0 g|q| | |t|t|t|t]; cbn [nstep] in E; try (rewrite P in E; discriminate).
  - rewrite P, T in E. destruct r; discriminate.
  - destruct (n_task s t); try discriminate. apply Nat.ltb_ge in B. rewrite B in E. discriminate.
  - destruct (n_task s t) as [| |[|[k0 g] q] [h|]|] eqn:Tt; try discriminate. pose proof (live_lt s t I ltac:(rewrite Tt; easy)) as LT. assert (D : t <> n) by (intros ->; congruence).
    pose proof (live_lt s n I ltac:(rewrite T; easy)) as LN.
    destruct (memb k0 keys); injection E as <-; exists r, k, n, w; cbn [n_set n_commit n_ph n_task n_next]; (split; [exact P|split]).
    + rewrite !upd_other by lia. exact T.
    + rewrite seq_S, filter_app, app_length. etransitivity; [exact C|]. etransitivity; [|apply Nat.le_add_r]. apply filter_le. intros u Hu. apply in_seq in Hu.
      destruct (Nat.eq_dec u t) as [->|Du]; [rewrite Tt; discriminate|]. rewrite !upd_other by lia. easy.
    + rewrite !upd_other by lia. exact T.
    + eapply (K t); [| | |reflexivity]; rewrite ?Tt; easy.
  - destruct (n_task s t) as [| |q [[k0 n0]|]|] eqn:Tt; try discriminate. assert (D : t <> n) by (intros ->; congruence). unfold held in E. rewrite P in E. destruct (Nat.eqb_spec k k0) as [->|Dk]; [discriminate|]. injection E as <-.
    exists r, k, n, w. cbn [n_set n_store n_ph n_task n_next]. split; [exact P|]. split; [now rewrite upd_other by congruence|]. eapply (K t); [| | |reflexivity]; rewrite ?Tt; try easy. cbn. intros H. apply Nat.eqb_eq in H. congruence.
  - destruct (n_task s t) as [| |[|] [|]|] eqn:Tt; try discriminate. assert (D : t <> n) by (intros ->; congruence). injection E as <-. exists r, k, n, w. cbn [n_set n_ph n_task n_next]. split; [exact P|].
    split; [now rewrite upd_other by congruence|]. eapply (K t); [| | |reflexivity]; rewrite ?Tt; easy.
Qed.
Lemma dead_run ls : forall s s', NI s -> Dead s -> nrun keys W s ls = Some s' -> n_ph s' <> NRet.
Proof.
  induction ls as [|l ls IH]; intros s s' I D E; cbn in E.
  - injection E as <-. destruct D as (r & k & n & w & P & _). now rewrite P.
  - destruct (nstep keys W s l) as [s1|] eqn:E1; [|discriminate]. apply (IH s1); [now apply (NI_step s l)|now apply (dead_step s l)|easy].
Qed.
Lemma nrun_app a : forall b s, nrun keys W s (a ++ b) = match nrun keys W s a with Some s1 => nrun keys W s1 b | None => None end.
Proof. induction a as [|l a IH]; intros b s; cbn; [easy|]. destruct (nstep keys W s l); [apply IH|easy]. Qed.
End K.
