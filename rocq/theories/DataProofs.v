(** Proofs on data under the engines. *)
From Verif Require Export DataSpec.
From Coq Require Import ZArith Lia Permutation.
Local Open Scope nat_scope.
Local Open Scope list_scope.

(** * Programs and their footprints *)
Lemma whole_frame R W p : within R W p -> forall m1 m2, (forall x, R x -> m1 x = m2 x) ->
  snd (whole p m1) = snd (whole p m2) /\ forall x, m1 x = m2 x -> fst (whole p m1) x = fst (whole p m2) x.
Proof.
  induction p as [r|x k IH|x v k IH]; cbn [within whole]; intros H m1 m2 E.
  - split; [reflexivity|]. now intros x.
  - destruct H as [Rx H]. rewrite (E x Rx). now apply IH.
  - destruct H as [_ H]. destruct (IH H (upd m1 x v) (upd m2 x v)) as [A B].
    + intros y Ry. unfold upd. destruct (y =? x); [reflexivity|now apply E].
    + split; [exact A|]. intros y Ey. apply B. unfold upd. now destruct (y =? x).
Qed.
Lemma whole_outside R W p : within R W p -> forall m x, ~ W x -> fst (whole p m) x = m x.
Proof.
  induction p as [r|y k IH|y v k IH]; cbn [within whole]; intros H m x N; [reflexivity| |].
  - now apply IH.
  - destruct H as [Wy H]. rewrite (IH H _ _ N). unfold upd. destruct (Nat.eqb_spec x y); [now subst|reflexivity].
Qed.

(** * Events *)
Definition who (v : dev) : nat := match v with Begin e | Act e | End e => e end.
Definition begins (t : list dev) : list nat := flat_map (fun v => match v with Begin e => [e] | _ => [] end) t.
Definition but (z : nat) (t : list dev) : list dev := filter (fun v => negb (who v =? z)) t.
Lemma begins_in t e : In e (begins t) <-> In (Begin e) t.
Proof. unfold begins. rewrite in_flat_map. split; [intros ([x|x|x] & H & Hx); cbn in Hx; try contradiction; destruct Hx as [<-|[]]; exact H|intros H; exists (Begin e); split; [exact H|now left]]. Qed.
Lemma begins_app t1 t2 : begins (t1 ++ t2) = begins t1 ++ begins t2.
Proof. apply flat_map_app. Qed.
Lemma xall_app body t1 : forall t2 s, xall body s (t1 ++ t2) = match xall body s t1 with Some s' => xall body s' t2 | None => None end.
Proof. induction t1 as [|v t1 IH]; intros t2 s; cbn [xall app]; [reflexivity|]. destruct (xone body s v); [apply IH|reflexivity]. Qed.
(** Nothing of an element that is not begun. *)
Lemma needs_begin body e t : forall s s', xall body s t = Some s' -> x_cur s e = None -> ~ In (Begin e) t -> ~ In (Act e) t /\ ~ In (End e) t /\ x_cur s' e = None.
Proof.
  induction t as [|v t IH]; intros s s' E C N; cbn [xall] in E; [injection E as <-; auto|]. destruct (xone body s v) as [s1|] eqn:E1; [|discriminate E].
  assert (X : x_cur s1 e = None /\ v <> Act e /\ v <> End e).
  { destruct v as [f|f|f]; cbn [xone] in E1.
    - injection E1 as <-. cbn. unfold upd. destruct (Nat.eqb_spec e f) as [->|Nf]; [exfalso; apply N; now left|]. repeat split; try discriminate. exact C.
    - destruct (x_cur s f) as [[r|x k|x v k]|] eqn:Cf; try discriminate E1; injection E1 as <-; cbn; unfold upd; (destruct (Nat.eqb_spec e f) as [->|Nf]; [congruence|]); repeat split; try discriminate; try exact C; congruence.
    - destruct (x_cur s f) as [[r|x k|x v k]|] eqn:Cf; try discriminate E1; injection E1 as <-; cbn; unfold upd; (destruct (Nat.eqb_spec e f) as [->|Nf]; [congruence|]); repeat split; try discriminate; try exact C; congruence. }
  destruct X as (X1 & X2 & X3). destruct (IH s1 s' E X1) as (A & B & D); [intros H; apply N; now right|]. repeat split; auto; intros [H|H]; auto.
Qed.
(** Nothing of an element after its end, if it begins once. *)
Lemma end_none body s e s' : xone body s (End e) = Some s' -> x_cur s' e = None.
Proof. cbn [xone]. destruct (x_cur s e) as [[r|x k|x v k]|]; try discriminate. intros E; injection E as <-. cbn. unfold upd. now rewrite Nat.eqb_refl. Qed.
Lemma over body m e t1 t2 s : xall body (x_new m) (t1 ++ t2) = Some s -> NoDup (begins (t1 ++ t2)) -> In (End e) t1 -> ~ In (Act e) t2 /\ ~ In (Begin e) t2.
Proof.
  intros E ND H. apply in_split in H as (a & b & ->). rewrite <- app_assoc in E, ND. cbn [app] in E, ND. rewrite xall_app in E. destruct (xall body (x_new m) a) as [sa|] eqn:Ea; [|discriminate E]. cbn [xall] in E. destruct (xone body sa (End e)) as [sb|] eqn:Eb; [|discriminate E].
  assert (Ba : In (Begin e) a). { destruct (in_dec Nat.eq_dec e (begins a)) as [I|I]; [now apply begins_in|]. exfalso. rewrite begins_in in I. destruct (needs_begin body e a _ _ Ea eq_refl I) as (_ & _ & C). cbn [xone] in Eb. rewrite C in Eb. discriminate. }
  assert (Nb : ~ In (Begin e) (b ++ t2)). { intros I. rewrite begins_app in ND. apply begins_in in Ba, I. cbn [begins flat_map] in ND. change (flat_map _ (b ++ t2)) with (begins (b ++ t2)) in ND. cbn [app] in ND. apply in_split in Ba as (u & w & Eu). rewrite Eu, <- app_assoc in ND. cbn [app] in ND. apply NoDup_remove_2 in ND. apply ND. apply in_or_app. right. apply in_or_app. now right. }
  destruct (needs_begin body e (b ++ t2) _ _ E (end_none _ _ _ _ Eb) Nb) as (A & _ & _). split; intros I; [apply A|apply Nb]; apply in_or_app; now right.
Qed.

(** * Removing the last element *)
Lemma whole_upd R W p m x v : within R W p -> ~ R x -> ~ W x -> snd (whole p (upd m x v)) = snd (whole p m) /\ forall y, fst (whole p (upd m x v)) y = if y =? x then v else fst (whole p m) y.
Proof.
  intros H Nr Nw. destruct (whole_frame R W p H (upd m x v) m) as [A B]; [intros y Ry; unfold upd; destruct (Nat.eqb_spec y x); [now subst|reflexivity]|]. split; [exact A|]. intros y. destruct (Nat.eqb_spec y x) as [->|N].
  - rewrite (whole_outside R W p H _ x Nw). unfold upd. now rewrite Nat.eqb_refl.
  - apply B. unfold upd. now destruct (Nat.eqb_spec y x).
Qed.
Section Z.
Variables (body : nat -> prog) (R W : nat -> nat -> Prop) (z : nat).
Hypothesis HB : forall e, within (R e) (W e) (body e).
Definition all_within (s : xst) : Prop := forall f p, x_cur s f = Some p -> within (R f) (W f) p.
Lemma within_one s v s' : all_within s -> xone body s v = Some s' -> all_within s'.
Proof.
  intros A E. destruct v as [e|e|e]; cbn [xone] in E; [injection E as <-|destruct (x_cur s e) as [[r|x k|x v k]|] eqn:C; try discriminate E; injection E as <- ..]; intros f p; cbn; unfold upd; (destruct (Nat.eqb_spec f e) as [->|N]; [|apply A]); intros X; try discriminate X; injection X as <-.
  - apply HB.
  - apply A in C. apply C.
  - apply A in C. apply C.
Qed.
Lemma within_all t : forall s s', all_within s -> xall body s t = Some s' -> all_within s'.
Proof. induction t as [|v t IH]; intros s s' A E; cbn [xall] in E; [now injection E as <-|]. destruct (xone body s v) as [s1|] eqn:E1; [|discriminate E]. apply (IH s1); [|exact E]. eapply within_one; eauto. Qed.
Definition tr_but (tr : list gevent) : list gevent := filter (fun v => match v with GStart e | GFinish e _ => negb (e =? z) end) tr.
(** [s]: with the events of z; [s']: without. *)
Definition same (s s' : xst) : Prop := (forall f, f <> z -> x_cur s f = x_cur s' f) /\ x_tr s' = tr_but (x_tr s).
Definition outside (s s' : xst) : Prop := forall x, ~ W z x -> x_mem s x = x_mem s' x.
Definition unfinished (s : xst) : Prop := forall r, ~ In (GFinish z r) (x_tr s).
Definition idle (s s' : xst) : Prop := same s s' /\ x_cur s z = None /\ (forall x, x_mem s x = x_mem s' x) /\ unfinished s.
(** z was begun when memory had been as it is in [s'] on all that z touches. *)
Definition begun (s s' : xst) : Prop := same s s' /\ outside s s' /\
  match x_cur s z with
  | Some p => snd (whole p (x_mem s)) = snd (whole (body z) (x_mem s')) /\ (forall x, fst (whole p (x_mem s)) x = fst (whole (body z) (x_mem s')) x) /\ unfinished s
  | None => (forall x, x_mem s x = fst (whole (body z) (x_mem s')) x) /\ (forall r, In (GFinish z r) (x_tr s) -> r = snd (whole (body z) (x_mem s')))
  end.
Lemma tr_but_app a b : tr_but (a ++ b) = tr_but a ++ tr_but b.
Proof. apply filter_app. Qed.
Lemma upd_other {A} (c : nat -> A) e v f : f <> e -> upd c e v f = c f.
Proof. intros N. unfold upd. now destruct (Nat.eqb_spec f e). Qed.
Lemma upd_self {A} (c : nat -> A) e v : upd c e v e = v.
Proof. unfold upd. now rewrite Nat.eqb_refl. Qed.
Lemma same_upd s s' e o m m' tr tr' : same s s' -> tr' = tr_but tr -> same (mkX m (upd (x_cur s) e o) tr) (mkX m' (upd (x_cur s') e o) tr').
Proof. intros [A _] T. split; [|exact T]. intros f N. cbn. unfold upd. destruct (f =? e); [reflexivity|now apply A]. Qed.
Lemma same_own s s' o m tr : same s s' -> x_tr s' = tr_but tr -> same (mkX m (upd (x_cur s) z o) tr) s'.
Proof. intros [A _] T. split; [|exact T]. intros f N. cbn. rewrite upd_other by exact N. now apply A. Qed.
Lemma neqb e : e <> z -> negb (e =? z) = true.
Proof. intros N. now destruct (Nat.eqb_spec e z). Qed.
Lemma other_idle s s' v s1 : idle s s' -> who v <> z -> xone body s v = Some s1 -> exists s1', xone body s' v = Some s1' /\ idle s1 s1'.
Proof.
  intros (S & C & M & U) N E. assert (S2 := proj2 S). destruct v as [e|e|e]; cbn [who] in N; cbn [xone] in *.
  - injection E as <-. eexists. split; [reflexivity|]. split; [apply same_upd; [exact S|]|split; [cbn; rewrite upd_other; congruence|split; [exact M|]]].
    + rewrite tr_but_app, S2. cbn. now rewrite neqb.
    + intros r H. apply in_app_or in H as [H|[H|[]]]; [now apply U in H|discriminate].
  - rewrite <- (proj1 S e N). destruct (x_cur s e) as [[r|x k|x v k]|] eqn:Ce; try discriminate E; injection E as <-; (eexists; split; [reflexivity|]).
    + rewrite (M x). split; [apply same_upd; [exact S|exact S2]|split; [cbn; rewrite upd_other; congruence|split; [exact M|exact U]]].
    + split; [apply same_upd; [exact S|exact S2]|split; [cbn; rewrite upd_other; congruence|split; [|exact U]]]. intros y. cbn. unfold upd. destruct (y =? x); [reflexivity|apply M].
  - rewrite <- (proj1 S e N). destruct (x_cur s e) as [[r|x k|x v k]|] eqn:Ce; try discriminate E; injection E as <-. eexists. split; [reflexivity|]. split; [apply same_upd; [exact S|]|split; [cbn; rewrite upd_other; congruence|split; [exact M|]]].
    + rewrite tr_but_app, S2. cbn. now rewrite neqb.
    + intros r' H. apply in_app_or in H as [H|[H|[]]]; [now apply U in H|congruence].
Qed.
Lemma other_begun s s' v s1 : all_within s -> begun s s' -> who v <> z -> (forall f, v = Act f -> ~ conflict R W f z) -> xone body s v = Some s1 -> exists s1', xone body s' v = Some s1' /\ begun s1 s1'.
Proof.
  intros Aw (S & O & C) N Nc E. assert (S2 := proj2 S). destruct v as [e|e|e]; cbn [who] in N; cbn [xone] in *.
  - injection E as <-. eexists. split; [reflexivity|]. split; [apply same_upd; [exact S|]|split; [exact O|]].
    + rewrite tr_but_app, S2. cbn. now rewrite neqb.
    + cbn. rewrite upd_other by congruence. destruct (x_cur s z) as [p|].
      * destruct C as (C1 & C2 & C3). split; [exact C1|]. split; [exact C2|]. intros r H. apply in_app_or in H as [H|[H|[]]]; [now apply C3 in H|discriminate].
      * destruct C as (C1 & C2). split; [exact C1|]. intros r H. apply in_app_or in H as [H|[H|[]]]; [now apply C2|discriminate].
  - specialize (Nc e eq_refl). rewrite <- (proj1 S e N). destruct (x_cur s e) as [[r|x k|x v k]|] eqn:Ce; try discriminate E; injection E as <-; (eexists; split; [reflexivity|]); assert (We := Aw e _ Ce); cbn [within] in We; destruct We as [Wx _].
    + rewrite (O x) by (intros H; apply Nc; exists x; auto). split; [apply same_upd; [exact S|exact S2]|split; [exact O|]]. cbn. rewrite upd_other by congruence. exact C.
    + assert (N1 : ~ R z x) by (intros H; apply Nc; exists x; auto). assert (N2 : ~ W z x) by (intros H; apply Nc; exists x; auto).
      split; [apply same_upd; [exact S|exact S2]|split].
      * intros y Ny. cbn. unfold upd. destruct (y =? x); [reflexivity|now apply O].
      * cbn. rewrite upd_other by congruence. destruct (whole_upd _ _ (body z) (x_mem s') x v (HB z) N1 N2) as [B1 B2]. destruct (x_cur s z) as [p|] eqn:Cz.
        -- destruct C as (C1 & C2 & C3). destruct (whole_upd _ _ p (x_mem s) x v (Aw z p Cz) N1 N2) as [A1 A2]. split; [now rewrite A1, B1|]. split; [|exact C3]. intros y. rewrite A2, B2. now destruct (y =? x).
        -- destruct C as (C1 & C2). rewrite B1. split; [|exact C2]. intros y. rewrite B2. unfold upd. destruct (y =? x); [reflexivity|apply C1].
  - rewrite <- (proj1 S e N). destruct (x_cur s e) as [[r|x k|x v k]|] eqn:Ce; try discriminate E; injection E as <-. eexists. split; [reflexivity|]. split; [apply same_upd; [exact S|]|split; [exact O|]].
    + rewrite tr_but_app, S2. cbn. now rewrite neqb.
    + cbn. rewrite upd_other by congruence. destruct (x_cur s z) as [p|].
      * destruct C as (C1 & C2 & C3). split; [exact C1|]. split; [exact C2|]. intros r' H. apply in_app_or in H as [H|[H|[]]]; [now apply C3 in H|congruence].
      * destruct C as (C1 & C2). split; [exact C1|]. intros r' H. apply in_app_or in H as [H|[H|[]]]; [now apply C2|congruence].
Qed.
Lemma own_begun s s' v s1 : all_within s -> begun s s' -> who v = z -> v <> Begin z -> xone body s v = Some s1 -> begun s1 s'.
Proof.
  intros Aw (S & O & C) N Nb E. assert (S2 := proj2 S). destruct v as [e|e|e]; cbn [who] in N; subst e; [congruence|..]; cbn [xone] in E.
  - destruct (x_cur s z) as [[r|x k|x v k]|] eqn:Cz; try discriminate E; injection E as <-; (split; [apply same_own; [exact S|exact S2]|]).
    + split; [exact O|]. cbn. rewrite upd_self. exact C.
    + assert (Wx := proj1 (Aw z _ Cz)). split; [|cbn; rewrite upd_self; exact C]. intros y Ny. cbn. rewrite upd_other by congruence. now apply O.
  - destruct (x_cur s z) as [[r|x k|x v k]|] eqn:Cz; try discriminate E; injection E as <-. destruct C as (C1 & C2 & C3). cbn [whole fst snd] in C1, C2. split; [apply same_own; [exact S|]|].
    + rewrite tr_but_app, S2. cbn. rewrite Nat.eqb_refl. cbn. now rewrite app_nil_r.
    + split; [exact O|]. cbn. rewrite upd_self. split; [exact C2|]. intros r' H. apply in_app_or in H as [H|[H|[]]]; [now apply C3 in H|congruence].
Qed.
Lemma own_idle s s' v s1 : idle s s' -> who v = z -> xone body s v = Some s1 -> v = Begin z /\ begun s1 s'.
Proof.
  intros (S & C & M & U) N E. assert (S2 := proj2 S). destruct v as [e|e|e]; cbn [who] in N; subst e; cbn [xone] in E; try (rewrite C in E; discriminate E). injection E as <-. split; [reflexivity|]. split; [apply same_own; [exact S|]|].
  - rewrite tr_but_app, S2. cbn. rewrite Nat.eqb_refl. cbn. now rewrite app_nil_r.
  - split; [intros x _; apply M|]. cbn. rewrite upd_self. destruct (whole_frame _ _ _ (HB z) (x_mem s) (x_mem s')) as [A B]; [intros x _; apply M|]. split; [exact A|]. split; [intros x; apply B, M|].
    intros r H. apply in_app_or in H as [H|[H|[]]]; [now apply U in H|discriminate].
Qed.
Lemma but_app a b : but z (a ++ b) = but z a ++ but z b.
Proof. apply filter_app. Qed.
Lemma simulate m t : forall s, xall body (x_new m) t = Some s -> NoDup (begins t) -> (forall t1 t2 f, t = t1 ++ Begin z :: t2 -> In (Act f) t2 -> f <> z -> ~ conflict R W f z) ->
  exists s', xall body (x_new m) (but z t) = Some s' /\ (~ In (Begin z) t /\ idle s s' \/ In (Begin z) t /\ begun s s').
Proof.
  induction t as [|v t IH] using rev_ind; intros s E ND H.
  - injection E as <-. exists (x_new m). split; [reflexivity|]. left. split; [easy|]. repeat split; easy.
  - rewrite xall_app in E. destruct (xall body (x_new m) t) as [s0|] eqn:E0; [|discriminate E]. cbn [xall] in E. destruct (xone body s0 v) as [s1|] eqn:E1; [|discriminate E]. injection E as <-.
    assert (ND0 : NoDup (begins t)) by (rewrite begins_app in ND; now apply NoDup_app_iff in ND).
    destruct (IH s0 eq_refl ND0) as (s' & R' & C). { intros t1 t2 f -> Hf Nf. apply (H t1 (t2 ++ [v])); [now rewrite <- app_assoc|apply in_or_app; now left|exact Nf]. }
    assert (Aw : all_within s0) by (apply (within_all t (x_new m)); [intros f p X; discriminate X|exact E0]).
    rewrite but_app, xall_app, R'. cbn [but filter]. destruct (Nat.eqb_spec (who v) z) as [Ez|Nz]; cbn [negb].
    + exists s'. split; [reflexivity|]. right. destruct C as [[Nb I]|[Ib B]].
      * destruct (own_idle _ _ _ _ I Ez E1) as [-> B]. split; [apply in_or_app; right; now left|exact B].
      * split; [apply in_or_app; now left|]. apply own_begun with (s := s0) (v := v); auto. intros ->. rewrite begins_app in ND. cbn in ND. apply begins_in in Ib. apply NoDup_remove_2 in ND. apply ND. rewrite app_nil_r. exact Ib.
    + destruct C as [[Nb I]|[Ib B]].
      * destruct (other_idle _ _ _ _ I Nz E1) as (s1' & X & I'). exists s1'. split; [cbn [xall]; now rewrite X|]. left. split; [|exact I']. intros Q. apply in_app_or in Q as [Q|[Q|[]]]; [contradiction|subst v; now cbn in Nz].
      * assert (Nc : forall f, v = Act f -> ~ conflict R W f z).
        { intros f ->. apply in_split in Ib as (t1 & t2 & ->). apply (H t1 (t2 ++ [Act f])); [now rewrite <- app_assoc|apply in_or_app; right; now left|exact Nz]. }
        destruct (other_begun _ _ _ _ Aw B Nz Nc E1) as (s1' & X & I'). exists s1'. split; [cbn [xall]; now rewrite X|]. right. split; [apply in_or_app; now left|exact I'].
Qed.
End Z.

(** * The order of conflicting elements decides *)
Definition ordered (R W : nat -> nat -> Prop) (o : list nat) (t : list dev) : Prop := forall f e, before o f e -> conflict R W f e -> forall t1 t2, t = t1 ++ Begin e :: t2 -> In (End f) t1.
Lemma but_split z t : forall u1 e u2, but z t = u1 ++ Begin e :: u2 -> exists t1 t2, t = t1 ++ Begin e :: t2 /\ but z t1 = u1.
Proof.
  induction t as [|v t IH]; intros u1 e u2 E; [destruct u1; discriminate E|]. cbn [but filter] in E. destruct (negb (who v =? z)) eqn:N.
  - destruct u1 as [|u u1]; cbn [app] in E; injection E as -> E.
    + exists [], t. now split.
    + destruct (IH _ _ _ E) as (t1 & t2 & -> & Q). exists (u :: t1), t2. split; [reflexivity|]. cbn [but filter]. rewrite N. f_equal. exact Q.
  - destruct (IH _ _ _ E) as (t1 & t2 & -> & Q). exists (v :: t1), t2. split; [reflexivity|]. cbn [but filter]. rewrite N. exact Q.
Qed.
Lemma but_in z t v : In v (but z t) <-> In v t /\ who v <> z.
Proof. unfold but. rewrite filter_In. destruct (Nat.eqb_spec (who v) z); cbn; intuition congruence. Qed.
Lemma begins_but z t : begins (but z t) = filter (fun e => negb (e =? z)) (begins t).
Proof. induction t as [|[e|e|e] t IH]; [reflexivity|..]; cbn [but filter begins flat_map who app]; fold (but z t); destruct (negb (e =? z)) eqn:N; cbn [begins flat_map app]; fold (begins t); fold (begins (but z t)); cbn [filter]; rewrite ?N, ?IH; reflexivity. Qed.
Lemma after_app body o z m : after body (o ++ [z]) m = fst (whole (body z) (after body o m)).
Proof. revert m. induction o as [|e o IH]; intros m; cbn [after app]; [reflexivity|apply IH]. Qed.
Lemma results_app body o z m : results body (o ++ [z]) m = results body o m ++ [(z, snd (whole (body z) (after body o m)))].
Proof. revert m. induction o as [|e o IH]; intros m; cbn [after results app]; [reflexivity|]. now rewrite IH. Qed.
Lemma nothing body t : forall s s', (forall f, x_cur s f = None) -> begins t = [] -> xall body s t = Some s' -> s' = s.
Proof.
  intros s s' C B E. destruct t as [|v t]; [now injection E as <-|]. exfalso. cbn [xall] in E. destruct v as [e|e|e]; [discriminate B|..]; cbn [xone] in E; rewrite C in E; discriminate E.
Qed.
Lemma before_cons_last {A} (l : list A) x y z : before l x y -> before (l ++ [z]) x y.
Proof. apply before_app. Qed.
Lemma conflict_sym R W e f : conflict R W e f -> conflict R W f e.
Proof. intros (x & [H|H]); exists x; auto. Qed.
Lemma decided body R W (HB : forall e, within (R e) (W e) (body e)) m o : forall t s, NoDup o -> xall body (x_new m) t = Some s -> NoDup (begins t) -> incl (begins t) o -> ordered R W o t ->
  (forall e r, In (GFinish e r) (x_tr s) -> In (e, r) (results body o m)) /\ forall x, (forall e, In e o -> W e x -> In (End e) t) -> x_mem s x = after body o m x.
Proof.
  induction o as [|z o IH] using rev_ind; intros t s NDo E ND In_o Or.
  - assert (B : begins t = []) by (destruct (begins t) as [|e l]; [reflexivity|]; destruct (In_o e (or_introl eq_refl))). rewrite (nothing body t (x_new m) s (fun _ => eq_refl) B E). split; [easy|reflexivity].
  - assert (Nz : ~ In z o) by (apply NoDup_remove_2 in NDo; now rewrite app_nil_r in NDo). assert (NDo' : NoDup o) by now apply NoDup_app_iff in NDo.
    assert (Last : forall t1 t2 f, t = t1 ++ Begin z :: t2 -> In f o -> conflict R W f z -> In (End f) t1) by (intros t1 t2 f Et Hf Hc; exact (Or f z (before_last o f z Hf) Hc t1 t2 Et)).
    destruct (simulate body R W z HB m t s E ND) as (s' & E' & C).
    { intros t1 t2 f Et Ha Nf Hc. assert (Hf : In f o). { assert (Bf : In (Begin f) t). { destruct (in_dec Nat.eq_dec f (begins t)) as [I|I]; [now apply begins_in|]. exfalso. rewrite begins_in in I. destruct (needs_begin body f t _ _ E eq_refl I) as (A & _). apply A. subst t. apply in_or_app. right. now right. }
        apply begins_in, In_o, in_app_or in Bf as [Bf|[Bf|[]]]; [exact Bf|congruence]. }
      assert (He := Last _ _ f Et Hf Hc). subst t. destruct (over body m f t1 (Begin z :: t2) s E ND He) as [A _]. apply A. now right. }
    destruct (IH (but z t) s' NDo' E') as [I1 I2].
    + rewrite begins_but. now apply NoDup_filter.
    + rewrite begins_but. intros e He. apply filter_In in He as [He Ne]. apply In_o, in_app_or in He as [He|[<-|[]]]; [exact He|]. rewrite Nat.eqb_refl in Ne. discriminate.
    + intros f e Bf Hc t1 t2 Et. destruct (but_split _ _ _ _ _ Et) as (u1 & u2 & -> & <-). apply but_in. split; [apply (Or f e (before_app _ _ _ _ Bf) Hc u1 u2 eq_refl)|]. cbn. intros ->. apply before_in in Bf as [Bf _]. contradiction.
    + assert (Tr : forall e r, e <> z -> In (GFinish e r) (x_tr s) -> In (GFinish e r) (x_tr s')). { intros e r Ne H. assert (S2 : x_tr s' = tr_but z (x_tr s)) by (destruct C as [[_ C]|[_ C]]; apply C). rewrite S2. unfold tr_but. apply filter_In. split; [exact H|]. now destruct (Nat.eqb_spec e z). }
      assert (Fp : In (Begin z) t -> forall y, R z y \/ W z y -> x_mem s' y = after body o m y).
      { intros Hz y Hy. apply I2. intros f Hf Hw. apply but_in. split; [|cbn; intros ->; contradiction]. apply in_split in Hz as (t1 & t2 & Et). rewrite Et. apply in_or_app. left. apply (Last t1 t2 f Et Hf). exists y. auto. }
      rewrite results_app, after_app. split.
      * intros e r H. apply in_or_app. destruct (Nat.eq_dec e z) as [->|Ne]; [right|left; now apply I1, Tr]. left. f_equal. destruct C as [[_ (_ & _ & _ & U)]|[Bz (_ & _ & C)]]; [now apply U in H|].
        destruct (whole_frame _ _ _ (HB z) (x_mem s') (after body o m)) as [A _]; [intros y Hy; apply Fp; auto|]. rewrite <- A. symmetry. destruct (x_cur s z); [destruct C as (_ & _ & U); now apply U in H|now apply C].
      * intros x Hx. assert (Hx' : forall e, In e o -> W e x -> In (End e) (but z t)). { intros e He Hw. apply but_in. split; [apply Hx; [apply in_or_app; now left|exact Hw]|]. cbn. intros ->. contradiction. }
        specialize (I2 x Hx').
        destruct C as [[Nb (_ & _ & M & _)]|[Bz (_ & O & C)]].
        -- rewrite M, I2. destruct (in_dec Nat.eq_dec z (map who (filter (fun v => match v with End _ => true | _ => false end) t))) as [Q|Q].
           ++ exfalso. apply in_map_iff in Q as (v & Ev & Hv). apply filter_In in Hv as [Hv Hk]. destruct v as [e|e|e]; try discriminate Hk. cbn in Ev. subst e. apply (needs_begin body z t _ _ E eq_refl Nb) in Hv. exact Hv.
           ++ symmetry. apply (whole_outside _ _ _ (HB z)). intros Hw. apply Q. apply in_map_iff. exists (End z). split; [reflexivity|]. apply filter_In. split; [|reflexivity]. apply Hx; [apply in_or_app; right; now left|exact Hw].
        -- destruct (in_dec Nat.eq_dec z (map who (filter (fun v => match v with End _ => true | _ => false end) t))) as [Q|Q].
           ++ apply in_map_iff in Q as (v & Ev & Hv). apply filter_In in Hv as [Hv Hk]. destruct v as [e|e|e]; try discriminate Hk. cbn in Ev. subst e. assert (Cz : x_cur s z = None).
              { apply in_split in Hv as (a & b & ->). rewrite xall_app in E. destruct (xall body (x_new m) a) as [sa|] eqn:Ea; [|discriminate E]. cbn [xall] in E. destruct (xone body sa (End z)) as [sb|] eqn:Eb; [|discriminate E]. apply (needs_begin body z b sb s E (end_none _ _ _ _ Eb)).
                intros Hb. assert (E3 : xall body (x_new m) ((a ++ [End z]) ++ b) = Some s) by (rewrite <- app_assoc; cbn [app]; rewrite xall_app, Ea; cbn [xall]; now rewrite Eb). destruct (over body m z (a ++ [End z]) b s E3) as [_ X]; [rewrite <- app_assoc; exact ND|apply in_or_app; right; now left|]. now apply X. }
              rewrite Cz in C. rewrite (proj1 C x). destruct (whole_frame _ _ _ (HB z) (x_mem s') (after body o m)) as [_ B]; [intros y Hy; apply Fp; auto|]. apply B. exact I2.
           ++ assert (Nw : ~ W z x). { intros Hw. apply Q. apply in_map_iff. exists (End z). split; [reflexivity|]. apply filter_In. split; [|reflexivity]. apply Hx; [apply in_or_app; right; now left|exact Hw]. }
              rewrite (O x Nw), I2. symmetry. now apply (whole_outside _ _ _ (HB z)).
Qed.
