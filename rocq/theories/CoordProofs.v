(** Invariants of the adjustment of secondary threads. *)
From Verif Require Export CoordSpec.
From Coq Require Import Lia.
Local Open Scope nat_scope.
Local Open Scope list_scope.

Lemma updA_same f a p : updA f a p a = p.
Proof. unfold updA. destruct (actor_eq a a); congruence. Qed.
Lemma updA_other f a p b : b <> a -> updA f a p b = f b.
Proof. unfold updA. destruct (actor_eq b a); congruence. Qed.
Definition inside (p : cpc) : bool :=
  match p with QMake _ _ _ | QSweep _ _ _ | QJoin _ _ _ _ | QCheck _ _ | QMark _ _ _ _ | QFreeze _ _ | QFJoin _ _ _ => true | _ => false end.
Definition untold (t : list nat) (l : list nat) : list nat := filter (fun j => negb (memb j t)) l.
Lemma untold_app t a b : untold t (a ++ b) = untold t a ++ untold t b. Proof. apply filter_app. Qed.
Lemma alive_untold p : alive p = untold (o_told p) (o_list p). Proof. reflexivity. Qed.

(** The state in the middle of the call that holds the mutex: [q] is the pool when the mutex was taken. *)
Definition midc (q : pool) (s : cst) (p : cpc) : Prop :=
  match p with
  | QMake n k l0 => l0 = o_list q /\ exists new, c_list s = o_list q ++ new /\ length new + k <= Z.to_nat n /\ NoDup new /\ (forall j, In j new -> ~ In j (o_list q) /\ ~ In j (o_told q))
  | QSweep n todo l0 => l0 = o_list q /\ exists d, o_list q = d ++ todo /\ c_list s = untold (o_told q) d ++ todo
  | QJoin n j todo l0 => l0 = o_list q /\ exists d, o_list q = d ++ todo /\ c_list s = untold (o_told q) d ++ todo /\ In j (o_told q) /\ c_told s j = true
  | QCheck n l0 => l0 = o_list q /\ c_list s = alive q
  | QMark n todo marked l0 => l0 = o_list q /\ c_list s = alive q /\ alive q = marked ++ todo /\ (Z.of_nat (length marked) <= Z.max 0 n)%Z /\ (n <= Z.of_nat (length (alive q)))%Z
  | QFreeze todo l0 => l0 = o_list q /\ exists d keep, o_list q = d ++ todo /\ c_list s = filter keep d ++ todo /\ (forall j, In j (o_told q) -> keep j = true) /\ (forall j, In j todo -> keep j = true)
  | QFJoin j todo l0 => l0 = o_list q /\ c_told s j = true /\ exists d keep, o_list q = d ++ todo /\ c_list s = filter keep d ++ todo /\ (forall j, In j (o_told q) -> keep j = true) /\ (forall j, In j todo -> keep j = true)
  | _ => True
  end.
Definition mark_of (p : cpc) : list nat := match p with QMark _ _ m _ => m | _ => [] end.
Record cinv (s : cst) : Prop := {
  ci_own : forall a, inside (c_pc s a) = true <-> c_mx s = Some a;
  ci_nodup : NoDup (c_list s);
  ci_next : forall j, In j (c_list s) -> j < c_next s;
  ci_hist : exists q, history (c_log s) q /\ NoDup (o_list q) /\ (forall j, In j (o_list q) -> j < c_next s) /\ (forall j, In j (o_told q) -> j < c_next s) /\
     (forall j, In j (c_list s) -> c_told s j = memb j (o_told q ++ match c_mx s with Some a => mark_of (c_pc s a) | None => [] end)) /\
     match c_mx s with None => c_list s = o_list q | Some a => midc q s (c_pc s a) end;
  ci_told : forall j, c_told s j = true -> j < c_next s;
  ci_real : forall a n real, c_pc s a = QCLock n real -> (real <= n)%Z }.
Lemma cinv_init : cinv c_init.
Proof.
  split; cbn.
  - intros a. split; discriminate.
  - constructor.
  - intros j [].
  - exists (mkP [] []). split; [constructor|]. split; [constructor|]. split; [intros j []|]. split; [intros j []|]. split; [intros j []|reflexivity].
  - discriminate.
  - discriminate.
Qed.
Lemma own_step s a p mx' : (forall b, inside (c_pc s b) = true <-> c_mx s = Some b) -> (c_mx s = None \/ c_mx s = Some a) -> (if inside p then mx' = Some a else mx' = None) ->
  forall b, inside (updA (c_pc s) a p b) = true <-> mx' = Some b.
Proof.
  intros H O P b. destruct (actor_eq b a) as [->|N].
  - rewrite updA_same. destruct (inside p); subst mx'; split; try reflexivity; discriminate.
  - rewrite updA_other by exact N. rewrite H. destruct (inside p); subst mx'; destruct O as [O|O]; rewrite O; split; intros K; try discriminate K; congruence.
Qed.
Lemma own_keep s a p : (forall b, inside (c_pc s b) = true <-> c_mx s = Some b) -> inside p = inside (c_pc s a) -> forall b, inside (updA (c_pc s) a p b) = true <-> c_mx s = Some b.
Proof. intros H P b. destruct (actor_eq b a) as [->|N]; [rewrite updA_same, P; apply H|rewrite updA_other by exact N; apply H]. Qed.

(** A step of an actor that does not hold the mutex and does not take it. *)
Lemma real_upd s a p : (forall b n real, c_pc s b = QCLock n real -> (real <= n)%Z) -> (match p with QCLock n real => (real <= n)%Z | _ => True end) ->
  forall b n real, updA (c_pc s) a p b = QCLock n real -> (real <= n)%Z.
Proof. intros H K b n real. destruct (actor_eq b a) as [->|N]; [rewrite updA_same; intros ->; exact K|rewrite updA_other by exact N; apply H]. Qed.
Lemma inside_real p : inside p = true -> match p with QCLock n real => (real <= n)%Z | _ => True end.
Proof. destruct p; try discriminate; auto. Qed.
Lemma out_step s a p : cinv s -> inside (c_pc s a) = false -> inside p = false -> (match p with QCLock n real => (real <= n)%Z | _ => True end) -> cinv (to s a p).
Proof.
  intros [O N B H T RL] I P KR. split; cbn [to c_pc c_mx c_list c_next c_told c_log].
  - apply own_keep; [exact O|congruence].
  - exact N.
  - exact B.
  - destruct H as (q & A & B1 & C & D & E & F). exists q. split; [exact A|]. split; [exact B1|]. split; [exact C|]. split; [exact D|].
    destruct (c_mx s) as [b|] eqn:M; [|auto]. assert (X : b <> a) by (intros ->; pose proof (proj2 (O a) eq_refl); congruence). rewrite updA_other by exact X. split; [exact E|].
    destruct (c_pc s b); exact F.
  - exact T.
  - apply real_upd; assumption.
Qed.
Lemma take_step s a p s' : cinv s -> inside (c_pc s a) = false -> lock s a p = Some s' -> inside p = true -> mark_of p = [] -> (forall q, o_list q = c_list s -> midc q s p) -> cinv s'.
Proof.
  intros [O N B H T RL] I L P MK MID. unfold lock in L. destruct (c_mx s) eqn:M; [discriminate|]. injection L as <-. split; cbn [c_pc c_mx c_list c_next c_told c_log].
  - apply own_step; [rewrite M; exact O|auto|rewrite P; reflexivity].
  - exact N.
  - exact B.
  - destruct H as (q & A & B1 & C & D & E & F). exists q. split; [exact A|]. split; [exact B1|]. split; [exact C|]. split; [exact D|]. rewrite updA_same, MK. split; [exact E|].
    specialize (MID q (eq_sym F)). destruct p; exact MID.
  - exact T.
  - apply real_upd; [exact RL|apply inside_real, P].
Qed.
(** A step of the owner to another place inside. *)
Lemma in_step s a p l nx told q : cinv s -> c_mx s = Some a -> inside p = true -> history (c_log s) q -> NoDup (o_list q) -> (forall j, In j (o_list q) -> j < nx) -> (forall j, In j (o_told q) -> j < nx) ->
  NoDup l -> (forall j, In j l -> j < nx) -> (forall j, In j l -> told j = memb j (o_told q ++ mark_of p)) -> (forall j, told j = true -> j < nx) ->
  (forall s', c_list s' = l -> c_told s' = told -> midc q s' p) -> cinv (mkC l nx told (c_ph s) (c_mx s) (updA (c_pc s) a p) (c_log s)).
Proof.
  intros [O N B H T RL] M P HQ Q1 Q2 Q3 L1 L2 L3 L4 MID. split; cbn [c_pc c_mx c_list c_next c_told c_log].
  - apply own_keep; [exact O|]. rewrite P. symmetry. apply O. exact M.
  - exact L1.
  - exact L2.
  - exists q. split; [exact HQ|]. split; [exact Q1|]. split; [exact Q2|]. split; [exact Q3|]. rewrite M, updA_same. split; [exact L3|]. apply MID; reflexivity.
  - exact L4.
  - apply real_upd; [exact RL|apply inside_real, P].
Qed.
Lemma leave_step s a e q : cinv s -> c_mx s = Some a -> history (c_log s ++ e) q -> NoDup (o_list q) -> (forall j, In j (o_list q) -> j < c_next s) -> (forall j, In j (o_told q) -> j < c_next s) ->
  c_list s = o_list q -> (forall j, In j (c_list s) -> c_told s j = memb j (o_told q)) -> cinv (leave_with s a e).
Proof.
  intros [O N B H T RL] M HQ Q1 Q2 Q3 L1 L3. split; cbn [leave_with c_pc c_mx c_list c_next c_told c_log].
  - apply own_step; [exact O|auto|reflexivity].
  - exact N.
  - exact B.
  - exists q. split; [exact HQ|]. split; [exact Q1|]. split; [exact Q2|]. split; [exact Q3|]. rewrite app_nil_r. split; [exact L3|exact L1].
  - exact T.
  - apply real_upd; [exact RL|exact I].
Qed.
Lemma drop_none l j : ~ In j l -> drop l j = l.
Proof.
  unfold drop. induction l as [|x l IH]; intros H; [reflexivity|]. cbn [filter]. destruct (Nat.eqb_spec x j) as [->|N]; [exfalso; apply H; left; reflexivity|].
  cbn [negb]. rewrite IH; [reflexivity|]. intros K. apply H. right. exact K.
Qed.
Lemma drop_mid a j b : NoDup (a ++ j :: b) -> drop (a ++ j :: b) j = a ++ b.
Proof.
  intros N. unfold drop. rewrite filter_app. fold (drop a j). cbn [filter]. rewrite Nat.eqb_refl. cbn [negb]. fold (drop b j).
  apply NoDup_remove_2 in N. rewrite !drop_none; [reflexivity| |]; intros K; apply N, in_or_app; auto.
Qed.
Lemma memb_app j a b : memb j (a ++ b) = memb j a || memb j b.
Proof. apply existsb_app. Qed.
Lemma NoDup_app_one (l : list nat) x : NoDup l -> ~ In x l -> NoDup (l ++ [x]).
Proof. intros N H. apply NoDup_rev in N. rewrite <- (rev_involutive (l ++ [x])). apply NoDup_rev. rewrite rev_app_distr. cbn. constructor; [rewrite <- in_rev; exact H|exact N]. Qed.
Lemma NoDup_filter_nat (f : nat -> bool) l : NoDup l -> NoDup (filter f l).
Proof. apply NoDup_filter. Qed.
Lemma filter_upd keep d j : ~ In j d -> filter (fun x => if Nat.eqb x j then false else keep x) d = filter keep d.
Proof.
  induction d as [|x d IH]; intros H; [reflexivity|]. cbn [filter]. destruct (Nat.eqb_spec x j) as [->|N]; [exfalso; apply H; left; reflexivity|].
  rewrite IH; [reflexivity|]. intros K. apply H. right. exact K.
Qed.

Ltac hyps V q := destruct (ci_hist _ V) as (q & HQ & Q1 & Q2 & Q3 & TOLD & MID).
Lemma step_cinv room s lb s' : cinv s -> cstep room s lb = Next s' -> cinv s'.
Proof.
  intros V H. destruct lb as [a o|a fz|j|j|j]; cbn [cstep] in H.
  - destruct (c_pc s a) eqn:P; try discriminate. destruct (match a with AMain _ => true | ASec j => match c_ph s j with STask => j <? c_next s | _ => false end end); [|discriminate]. injection H as <-.
    apply out_step; [exact V|rewrite P; reflexivity|destruct o; reflexivity|destruct o; exact I].
  - assert (OWN : inside (c_pc s a) = true -> c_mx s = Some a) by (apply (ci_own s V)).
    assert (LK : forall p, inside (c_pc s a) = false -> inside p = true -> mark_of p = [] -> (forall q, o_list q = c_list s -> midc q s p) -> some (lock s a p) = Next s' -> cinv s').
    { intros p I1 I2 I3 I4 X. destruct (lock s a p) eqn:L; [|discriminate]. injection X as <-. eapply take_step; eauto. }
    destruct (c_pc s a) as [|n|n real|n k l0|n|n todo l0|n j todo l0|n l0|n todo marked l0| |todo l0|j todo l0] eqn:P; try discriminate.
    + injection H as <-. apply out_step; [exact V|rewrite P; reflexivity|reflexivity|]. lia.
    + apply (LK (QMake n (Z.to_nat real) (c_list s))); auto.
      intros q E. cbn [midc]. split; [auto|]. exists []. rewrite app_nil_r, E. pose proof (ci_real s V a n real P). split; [reflexivity|]. split; [cbn [length]; lia|]. split; [constructor|]. intros j [].
    + specialize (OWN eq_refl). hyps V q. rewrite OWN, P in TOLD, MID. cbn [midc mark_of] in TOLD, MID. rewrite app_nil_r in TOLD. destruct MID as (-> & new & L & LEN & ND & FR).
      destruct k as [|k]; injection H as <-.
      * apply (leave_step s a _ (mkP (o_list q ++ new) (o_told q))); try assumption; cbn [o_list o_told].
        -- rewrite L. apply hi_cre; try assumption. lia.
        -- rewrite <- L. exact (ci_nodup s V).
        -- rewrite <- L. exact (ci_next s V).
      * assert (NX : ~ In (c_next s) (c_list s)) by (intros K; pose proof (ci_next s V _ K); lia).
        apply (in_step s a _ _ _ _ q); try assumption.
        -- reflexivity.
        -- intros j I. specialize (Q2 j I). lia.
        -- intros j I. specialize (Q3 j I). lia.
        -- apply NoDup_app_one; [exact (ci_nodup s V)|exact NX].
        -- intros j I. apply in_app_or in I. destruct I as [I|[<-|[]]]; [pose proof (ci_next s V j I); lia|lia].
        -- intros j I. cbn [mark_of]. rewrite app_nil_r. apply in_app_or in I. destruct I as [I|[<-|[]]]; [apply TOLD, I|].
           assert (E1 : c_told s (c_next s) = false) by (destruct (c_told s (c_next s)) eqn:E; [pose proof (ci_told s V _ E); lia|reflexivity]).
           assert (E2 : memb (c_next s) (o_told q) = false) by (apply memb_false; intros K; specialize (Q3 _ K); lia). congruence.
        -- intros j E. pose proof (ci_told s V j E). lia.
        -- intros s' E1 E2. cbn [midc]. split; [reflexivity|]. exists (new ++ [c_next s]). rewrite E1, L, app_assoc. split; [reflexivity|]. split; [rewrite app_length; cbn [length]; lia|]. split.
           ++ apply NoDup_app_one; [exact ND|]. intros K. apply NX. rewrite L. apply in_or_app. auto.
           ++ intros j I. apply in_app_or in I. destruct I as [I|[<-|[]]]; [apply FR, I|]. split; intros K; [specialize (Q2 _ K)|specialize (Q3 _ K)]; lia.
    + apply (LK (QSweep n (c_list s) (c_list s))); auto. intros q E. cbn [midc]. split; [auto|]. exists []. split; [exact E|reflexivity].
    + specialize (OWN eq_refl). hyps V q. rewrite OWN, P in TOLD, MID. cbn [midc mark_of] in TOLD, MID. rewrite app_nil_r in TOLD. destruct MID as (-> & d & D & L).
      destruct todo as [|j r]; injection H as <-.
      * rewrite app_nil_r in D, L. apply (in_step s a _ _ _ _ q); try assumption; try reflexivity; [exact (ci_nodup s V)|exact (ci_next s V)|cbn [mark_of]; rewrite app_nil_r; exact TOLD|exact (ci_told s V)|].
        intros s' E1 E2. cbn [midc]. split; [reflexivity|]. rewrite E1, alive_untold, D. exact L.
      * assert (JL : In j (c_list s)) by (rewrite L; apply in_or_app; right; left; reflexivity). pose proof (TOLD j JL) as TJ.
        pose proof (ci_nodup s V) as ND. rewrite L in ND.
        destruct (c_told s j) eqn:TE.
        -- unfold erase. rewrite L, (drop_mid _ _ _ ND). apply (in_step s a _ _ _ _ q); try assumption.
           ++ reflexivity.
           ++ apply NoDup_remove_1 in ND. exact ND.
           ++ intros x I. apply (ci_next s V). rewrite L. apply in_app_or in I. apply in_or_app. destruct I; [auto|right; right; assumption].
           ++ intros x I. cbn [mark_of]. rewrite app_nil_r. destruct (Nat.eq_dec x j) as [->|NE]; [rewrite upd_same; congruence|]. rewrite upd_other by congruence. apply TOLD. rewrite L. apply in_app_or in I. apply in_or_app. destruct I; [auto|right; right; assumption].
           ++ intros x E. destruct (Nat.eq_dec x j) as [->|NE]; [exact (ci_next s V j JL)|]. rewrite upd_other in E by congruence. exact (ci_told s V x E).
           ++ intros s' E1 E2. cbn [midc]. split; [reflexivity|]. exists (d ++ [j]). rewrite <- app_assoc. split; [exact D|]. split; [|split].
              ** rewrite E1, untold_app. cbn [untold filter]. rewrite <- TJ. cbn [negb]. rewrite app_nil_r. reflexivity.
              ** apply memb_in. congruence.
              ** rewrite E2, upd_same. reflexivity.
        -- unfold to. apply (in_step s a _ _ _ _ q); try assumption; try reflexivity; [exact (ci_nodup s V)|exact (ci_next s V)|cbn [mark_of]; rewrite app_nil_r; exact TOLD|exact (ci_told s V)|].
           intros s' E1 E2. cbn [midc]. split; [reflexivity|]. exists (d ++ [j]). rewrite <- app_assoc. split; [exact D|]. rewrite E1, L, untold_app. cbn [untold filter]. rewrite <- TJ. cbn [negb]. rewrite <- app_assoc. reflexivity.
    + specialize (OWN eq_refl). unfold join in H. destruct (actor_eq a (ASec j)); [discriminate|]. destruct (c_ph s j); try discriminate. injection H as <-.
      hyps V q. rewrite OWN, P in TOLD, MID. cbn [midc mark_of] in TOLD, MID. destruct MID as (-> & d & D & L & _).
      unfold to. apply (in_step s a _ _ _ _ q); try assumption; try reflexivity; [exact (ci_nodup s V)|exact (ci_next s V)|exact (ci_told s V)|].
      intros s' E1 E2. cbn [midc]. split; [reflexivity|]. exists d. rewrite E1. auto.
    + specialize (OWN eq_refl). hyps V q. rewrite OWN, P in TOLD, MID. cbn [midc mark_of] in TOLD, MID. rewrite app_nil_r in TOLD. destruct MID as (-> & L).
      destruct (Z.of_nat (length (c_list s)) <? n)%Z eqn:CK; injection H as <-.
      * apply (leave_step s a _ (mkP (alive q) (o_told q))); try assumption; cbn [o_list o_told].
        -- rewrite L. apply (hi_rel (c_log s) q a n false (mkP (alive q) (o_told q)) [] HQ). unfold release_at_once. rewrite <- L, CK. reflexivity.
        -- rewrite <- L. exact (ci_nodup s V).
        -- rewrite <- L. exact (ci_next s V).
      * unfold to. apply (in_step s a _ _ _ _ q); try assumption; try reflexivity; [exact (ci_nodup s V)|exact (ci_next s V)|cbn [mark_of]; rewrite app_nil_r; exact TOLD|exact (ci_told s V)|].
        intros s' E1 E2. cbn [midc]. apply Z.ltb_ge in CK. rewrite E1. rewrite <- L. split; [reflexivity|]. split; [reflexivity|]. split; [reflexivity|]. cbn [length]. lia.
    + specialize (OWN eq_refl). hyps V q. rewrite OWN, P in TOLD, MID. cbn [midc mark_of] in TOLD, MID. destruct MID as (-> & L & MT & LE & NL).
      assert (FIN : (n <= Z.of_nat (length marked) \/ todo = [])%Z -> cinv (leave_with s a [ERel a n true (o_list q) (c_list s) marked])).
      { intros K. assert (FI : firstn (Z.to_nat n) (alive q) = marked).
        { rewrite MT in NL |- *. destruct K as [K| ->].
          - assert (EQ : Z.to_nat n = length marked) by lia. rewrite EQ, firstn_app, Nat.sub_diag, firstn_all. cbn [firstn]. apply app_nil_r.
          - rewrite app_nil_r in *. apply firstn_all2. lia. }
        apply (leave_step s a _ (mkP (alive q) (o_told q ++ marked))); try assumption; cbn [o_list o_told].
        - rewrite L. apply (hi_rel (c_log s) q a n true (mkP (alive q) (o_told q ++ marked)) marked HQ). unfold release_at_once. rewrite (proj2 (Z.ltb_ge _ _) NL), FI. reflexivity.
        - rewrite <- L. exact (ci_nodup s V).
        - rewrite <- L. exact (ci_next s V).
        - intros j I. apply in_app_or in I. destruct I as [I|I]; [apply Q3, I|]. apply (ci_next s V). rewrite L, MT. apply in_or_app. auto. }
      destruct todo as [|j r]; [injection H as <-; apply FIN; auto|].
      destruct (0 <? n - Z.of_nat (length marked))%Z eqn:CK; injection H as <-; [|apply FIN; left; apply Z.ltb_ge in CK; lia].
      apply Z.ltb_lt in CK. assert (JL : In j (c_list s)) by (rewrite L, MT; apply in_or_app; right; left; reflexivity).
      apply (in_step s a _ _ _ _ q); try assumption.
      * reflexivity.
      * exact (ci_nodup s V).
      * exact (ci_next s V).
      * intros x I. cbn [mark_of]. rewrite app_assoc, memb_app, <- (TOLD x I). destruct (Nat.eq_dec x j) as [->|NE].
        -- rewrite upd_same. unfold memb. cbn [existsb]. rewrite Nat.eqb_refl. destruct (c_told s j); reflexivity.
        -- rewrite upd_other by congruence. replace (memb x [j]) with false; [destruct (c_told s x); reflexivity|]. symmetry. apply memb_false. intros [K|[]]. congruence.
      * intros x E. destruct (Nat.eq_dec x j) as [->|NE]; [exact (ci_next s V j JL)|]. rewrite upd_other in E by congruence. exact (ci_told s V x E).
      * intros s' E1 E2. cbn [midc]. split; [reflexivity|]. rewrite E1. split; [exact L|]. rewrite <- app_assoc. split; [exact MT|]. rewrite app_length. cbn [length]. lia.
    + apply (LK (QFreeze (c_list s) (c_list s))); auto. intros q E. cbn [midc]. split; [auto|]. exists [], (fun _ => true). split; [exact E|]. split; [reflexivity|]. auto.
    + specialize (OWN eq_refl). hyps V q. rewrite OWN, P in TOLD, MID. cbn [midc mark_of] in TOLD, MID. rewrite app_nil_r in TOLD. destruct MID as (-> & d & keep & D & L & K1 & K2).
      destruct todo as [|j r]; injection H as <-.
      * rewrite app_nil_r in D, L. apply (leave_step s a _ (mkP (filter keep (o_list q)) (o_told q))); try assumption; cbn [o_list o_told]; rewrite ?D.
        -- rewrite L, <- D. apply hi_swp; assumption.
        -- rewrite <- L. exact (ci_nodup s V).
        -- rewrite <- L. exact (ci_next s V).
        -- exact L.
      * assert (JL : In j (c_list s)) by (rewrite L; apply in_or_app; right; left; reflexivity). pose proof (TOLD j JL) as TJ.
        pose proof (ci_nodup s V) as ND. rewrite L in ND.
        destruct (fz && negb (c_told s j)) eqn:FZ.
        -- apply andb_prop in FZ. destruct FZ as [_ FZ]. apply Bool.negb_true_iff in FZ.
           assert (NT : ~ In j (o_told q)) by (apply memb_false; congruence).
           assert (NDQ : ~ In j d /\ ~ In j r).
           { rewrite D in Q1. apply NoDup_remove_2 in Q1. split; intros X; apply Q1, in_or_app; auto. }
           unfold erase. rewrite L, (drop_mid _ _ _ ND). apply (in_step s a _ _ _ _ q); try assumption.
           ++ reflexivity.
           ++ apply NoDup_remove_1 in ND. exact ND.
           ++ intros x I. apply (ci_next s V). rewrite L. apply in_app_or in I. apply in_or_app. destruct I; [auto|right; right; assumption].
           ++ intros x I. cbn [mark_of]. rewrite app_nil_r. assert (NE : x <> j) by (intros ->; apply NoDup_remove_2 in ND; exact (ND I)). rewrite upd_other by congruence. apply TOLD. rewrite L. apply in_app_or in I. apply in_or_app. destruct I; [auto|right; right; assumption].
           ++ intros x E. destruct (Nat.eq_dec x j) as [->|NE]; [exact (ci_next s V j JL)|]. rewrite upd_other in E by congruence. exact (ci_told s V x E).
           ++ intros s' E1 E2. cbn [midc]. split; [reflexivity|]. split; [rewrite E2, upd_same; reflexivity|].
              exists (d ++ [j]), (fun x => if Nat.eqb x j then false else keep x). rewrite <- app_assoc. split; [exact D|]. split; [|split].
              ** rewrite E1, filter_app, filter_upd by apply NDQ. cbn [filter]. rewrite Nat.eqb_refl, app_nil_r. reflexivity.
              ** intros x I. destruct (Nat.eqb_spec x j) as [->|NE]; [contradiction|apply K1, I].
              ** intros x I. destruct (Nat.eqb_spec x j) as [->|NE]; [destruct NDQ; contradiction|apply K2; right; exact I].
        -- unfold to. apply (in_step s a _ _ _ _ q); try assumption; try reflexivity; [exact (ci_nodup s V)|exact (ci_next s V)|cbn [mark_of]; rewrite app_nil_r; exact TOLD|exact (ci_told s V)|].
           intros s' E1 E2. cbn [midc]. split; [reflexivity|]. exists (d ++ [j]), keep. rewrite <- app_assoc. split; [exact D|]. split; [|split; [exact K1|intros x I; apply K2; right; exact I]].
           rewrite E1, L, filter_app. cbn [filter]. rewrite (K2 j (or_introl eq_refl)), <- app_assoc. reflexivity.
    + specialize (OWN eq_refl). unfold join in H. destruct (actor_eq a (ASec j)); [discriminate|]. destruct (c_ph s j); try discriminate. injection H as <-.
      hyps V q. rewrite OWN, P in TOLD, MID. cbn [midc mark_of] in TOLD, MID. destruct MID as (-> & _ & d & keep & D & L & K1 & K2).
      unfold to. apply (in_step s a _ _ _ _ q); try assumption; try reflexivity; [exact (ci_nodup s V)|exact (ci_next s V)|exact (ci_told s V)|].
      intros s' E1 E2. cbn [midc]. split; [reflexivity|]. exists d, keep. rewrite E1. auto.
  - destruct ((j <? c_next s) && negb (c_told s j)); [|discriminate]. destruct (c_ph s j); try discriminate. injection H as <-. destruct V as [O N B H T RL]. split; assumption.
  - destruct (c_ph s j); try discriminate. destruct (c_pc s (ASec j)); try discriminate. injection H as <-. destruct V as [O N B H T RL]. split; assumption.
  - destruct (c_told s j); [|discriminate]. destruct (c_ph s j); try discriminate. injection H as <-. destruct V as [O N B H T RL]. split; assumption.
Qed.
Lemma run_cinv room ls : forall s s', cinv s -> crun room s ls = Next s' -> cinv s'.
Proof.
  induction ls as [|x r IH]; intros s s' V; cbn [crun]; [congruence|]. destruct (cstep room s x) as [s1| |] eqn:S; try discriminate. apply IH. eapply step_cinv; eauto.
Qed.
