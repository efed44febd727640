(** Nobody who is not resting can be kept from acting: fair rounds always exist *)
From Verif Require Import GraphSpec EngLiveSpec DynInv DynProofs DynTerm PoolProofs PoolLive BindProofs EngPoolProofs EngPoolProps EngLiveProofs.
From Coq Require Import Lia Permutation.
Local Open Scope nat_scope.
Local Open Scope list_scope.

Lemma spawn_nsec n : forall p, p_nsec p <= p_nsec (spawn n p).
Proof. induction n as [|n IH]; intros p; cbn [spawn]; [lia|]. etransitivity; [|apply IH]. pc. lia. Qed.
Lemma nsec_step k p g p' : pool_step k p g = Next p' -> p_nsec p <= p_nsec p' /\ (works g = true -> p_nsec p' = p_nsec p) /\ (works g = true -> forall j, (forall ok, g <> LSec j ok) -> p_st p' j = p_st p j).
Proof.
  intros E. destruct g as [|t idx busy a|u t tid en lk|u t prio a|u n|u|i ok|j ok|i|j|j|]; cbn [pool_step] in E.
  - injection E as <-. unfold pool_init. destruct (p_init p); [now split|]. split; [|now split]. etransitivity; [|apply spawn_nsec]. pc. lia.
  - destruct (dispatch k (p_cur p) idx busy) as [[r cur']|]; [|discriminate]. destruct (dest k r).
    + destruct (p_init p); [|discriminate]. destruct (p_lk p i); [discriminate|]. injection E as <-. now split.
    + injection E as <-. now split.
    + unfold push_prio in E. destruct (memb _ _); [discriminate|]. injection E as <-. now split.
  - split; [|now split]. destruct ((0 <=? tid)%Z && (tid <? Z.of_nat (c_def k))%Z); [|injection E as <-; pc; lia]. destruct (negb (p_init p)); [discriminate|].
    destruct (en && lk); destruct (p_lk p (Z.to_nat tid)); try discriminate; [destruct (Nat.eqb _ _); discriminate|injection E as <-; pc; lia|].
    destruct (Nat.eqb _ _); [|discriminate]. injection E as <-. destruct en; pc; lia.
  - split; [|now split]. destruct (find_call u (p_call p)); [discriminate|]. injection E as <-. pc. lia.
  - split; [|now split]. destruct (find_call u (p_call p)); [discriminate|]. injection E as <-. pc. lia.
  - split; [|now split]. destruct (find_call u (p_call p)) as [q|]; [|discriminate]. destruct (k_task q) as [[a [pr t]]|].
    + unfold push_prio in E. destruct (memb _ _); [discriminate|]. injection E as <-. pc. apply spawn_nsec.
    + injection E as <-. pc. apply spawn_nsec.
  - unfold prim_step in E. destruct (p_pt p i) as [| |[|n]|[|x r]|]; try discriminate; try (injection E as <-; now split).
    + destruct (if ok then p_lk p i else Some 0), (own_take k (p_wsq p i)) as [[|x a] b]; injection E as <-; now split.
    + destruct (nth_error (targets k i) n) as [j|].
      * destruct (if ok then p_lk p j else Some 0), (steal_take k (p_wsq p j)) as [[|x a] b]; injection E as <-; now split.
      * destruct ok, (pool_take k (p_q p)) as [[|x a] b]; injection E as <-; now split.
  - assert (X : p_nsec p' = p_nsec p /\ forall n, n <> j -> p_st p' n = p_st p n).
    { unfold sec_step in E. destruct (p_st p j) as [| | | |[|x r]|]; try discriminate;
        repeat match goal with H : context [match ?b with true => _ | false => _ end] |- _ => destruct b eqn:?
               | H : context [let (_, _) := pool_take k (p_q p) in _] |- _ => destruct (pool_take k (p_q p)) as [[|? ?] ?]
               | H : context [let (_, _) := prio_take (p_prio p) in _] |- _ => destruct (prio_take (p_prio p)) as [[|? ?] ?]
               | H : context [match p_q p with _ => _ end] |- _ => destruct (p_q p) end;
        injection E as <-; (split; [reflexivity|]); intros m Hm; pc; now rewrite upd_other. }
    destruct X as [X1 X2]. split; [lia|]. split; [auto|]. intros _ n Hn. apply X2. intros ->. now destruct (Hn ok).
  - split; [|now split]. destruct (p_init p && Nat.ltb i (c_def k)); [|discriminate]. injection E as <-. pc. lia.
  - split; [|now split]. destruct (memb j (p_sec p)); [|discriminate]. injection E as <-. pc. lia.
  - split; [|now split]. destruct (p_st p j); try discriminate. destruct (memb j (p_sec p)); [|discriminate]. injection E as <-. pc. lia.
  - split; [|now split]. destruct (p_init p && _ && _); [|discriminate]. destruct (existsb _ _); [discriminate|]. injection E as <-. pc. lia.
Qed.

(** The threads inside elements are different threads of the pool *)
Definition place (k : cfg) (p : pool) (w : thr) : Prop := match w with Prim i => i < c_def k | Sec j => j < p_nsec p end.
Definition who_ok (k : cfg) (s : eng) : Prop := NoDup (e_who s) /\ forall w, In w (e_who s) -> place k (e_p s) w.
Lemma thr_eqb_eq v w : thr_eqb v w = true -> v = w.
Proof. destruct v, w; cbn; try discriminate; intros H; apply Nat.eqb_eq in H; now subst. Qed.
Lemma not_inside who w g : match g with LPrim i _ => w = Prim i | LSec j _ => w = Sec j | _ => False end -> inside who g = false -> ~ In w who.
Proof.
  intros W N H. destruct g; try contradiction; subst w; cbn [inside] in N; (assert (X : existsb (thr_eqb _) who = true) by (apply existsb_exists; eexists; split; [exact H|apply thr_eqb_refl])); congruence.
Qed.
Lemma who_step c k s l s' : pinv k (e_p s) -> who_ok k s -> estep c k s l = Some s' -> who_ok k s'.
Proof.
  intros PI [N P] E. destruct l as [l busy a|g]; cbn [estep] in E.
  - assert (X : exists who, e_who s' = who /\ (who = e_who s \/ exists i, who = remove_nth i (e_who s)) /\ (e_p s' = e_p s \/ exists g, pool_step k (e_p s) g = Next (e_p s'))).
    { destruct l; try discriminate; (destruct (dstep c (e_d s) _) as [d|]; [|discriminate]);
        (destruct (gives (e_d s) _) as [e|]; [destruct (pool_step k (e_p s) _) as [| |p] eqn:Ep; try discriminate|]); injection E as <-; cbn [e_who e_p]; eexists; (split; [reflexivity|]);
        (split; [|solve [now left|right; eexists; exact Ep]]); try (now left); destruct (Nat.ltb _ _); [right; now eexists|now left|right; now eexists|now left]. }
    destruct X as (who & EW & W & EP). unfold who_ok. rewrite EW. assert (M : p_nsec (e_p s) <= p_nsec (e_p s')) by (destruct EP as [->|(g & EP)]; [lia|now destruct (nsec_step k _ _ _ EP)]).
    assert (P' : forall w, In w (e_who s) -> place k (e_p s') w) by (intros w Hw; specialize (P w Hw); destruct w; cbn [place] in *; lia).
    destruct W as [->|(i & ->)]; [now split|]. split; [|intros w Hw; apply P'; now apply in_remove_nth in Hw].
    destruct (nth_error (e_who s) i) as [x|] eqn:En; [|].
    + apply nth_error_remove in En. apply (Permutation_NoDup En) in N. now inversion N.
    + assert (X : remove_nth i (e_who s) = e_who s); [|now rewrite X]. clear -En. revert En. generalize (e_who s). induction i as [|i IH]; intros [|y l] En; cbn in *; try discriminate; trivial. now rewrite IH.
  - destruct (existsb _ (given1 g)); [discriminate|]. cbn [orb] in E. destruct (inside (e_who s) g) eqn:IN; [discriminate|]. destruct (pool_step k (e_p s) g) as [| |p] eqn:Ep; try discriminate.
    destruct (nsec_step k _ _ _ Ep) as (M & _).
    assert (P' : forall w, In w (e_who s) -> place k p w) by (intros w Hw; specialize (P w Hw); destruct w; cbn [place] in *; lia).
    destruct (executes (e_p s) g) as [[w t]|] eqn:Ex; [destruct (memb t (els (c_g c)))|]; [|injection E as <-; now split|injection E as <-; now split].
    destruct (dstep c (e_d s) _) as [d|]; [|discriminate]. injection E as <-. unfold who_ok. cbn [e_who e_p].
    assert (W : ~ In w (e_who s) /\ place k p w).
    { destruct g; try discriminate; cbn [executes] in Ex.
      - destruct (p_pt (e_p s) i) as [| | |[|x r]|] eqn:EP; try discriminate. injection Ex as <- <-. split; [exact (not_inside _ (Prim i) (LPrim i ok) eq_refl IN)|]. cbn [place].
        destruct (Nat.lt_ge_cases i (c_def k)) as [H|H]; [exact H|]. destruct (iv_prim _ _ PI i H). congruence.
      - destruct (p_st (e_p s) j) as [| | | |[|x r]|] eqn:EP; try discriminate. injection Ex as <- <-. split; [exact (not_inside _ (Sec j) (LSec j ok) eq_refl IN)|]. cbn [place].
        destruct (Nat.lt_ge_cases j (p_nsec (e_p s))) as [H|H]; [lia|]. rewrite (iv_sec _ _ PI j H) in EP. discriminate. }
    split; [|intros v Hv; apply in_app_iff in Hv as [Hv|[<-|[]]]; [now apply P'|apply W]].
    apply (Permutation_NoDup (l := w :: e_who s)); [apply Permutation_cons_append|]. now constructor.
Qed.

Lemma who_run c k : forall ls s s', pinv k (e_p s) -> who_ok k s -> (exists hd hp, einv c k hd hp s) -> erun c k s ls = Some s' -> who_ok k s'.
Proof.
  induction ls as [|l ls IH]; intros s s' P W (hd & hp & I) E; cbn [erun] in E; [now injection E as <-|]. destruct (estep c k s l) as [s1|] eqn:E1; [|discriminate].
  pose proof (estep_inv c k hd hp s l s1 I E1) as I1. apply (IH s1 s'); trivial.
  - destruct (pool_run_inv k _ _ _ (pinv_new k) (ei_p _ _ _ _ _ I1)) as [X _]. exact X.
  - exact (who_step c k s l s1 P W E1).
  - eexists. eexists. exact I1.
Qed.

(** Someone who is not resting *)
Definition busy (k : cfg) (s : eng) (a : actor) : Prop :=
  match a with
  | Caller => d_main (e_d s) <> MAsleep /\ d_main (e_d s) <> MIdle
  | InPool w => In w (e_who s) \/ match w with Prim i => i < c_def k | Sec j => p_st (e_p s) j <> SExit end
  end.
Lemma busy_or k s a : busy k s a \/ resting k s a.
Proof.
  destruct a as [|w]; cbn [busy resting]; [destruct (d_main (e_d s)); auto; left; split; discriminate|].
  destruct (existsb (thr_eqb w) (e_who s)) eqn:X.
  - apply existsb_exists in X as (v & V & Hv). apply thr_eqb_eq in Hv as <-. now left; left.
  - assert (N : ~ In w (e_who s)). { intros H. assert (existsb (thr_eqb w) (e_who s) = true) by (apply existsb_exists; exists w; split; [exact H|apply thr_eqb_refl]). congruence. }
    destruct w as [i|j]; [destruct (Nat.lt_ge_cases i (c_def k)); [left; now right|right; now split]|].
    destruct (p_st (e_p s) j); try (left; right; discriminate). right. now split.
Qed.
Lemma wake_stays nt m : m <> MAsleep -> m <> MIdle -> wake nt m <> MAsleep /\ wake nt m <> MIdle.
Proof. destruct nt, m; cbn; try easy; try congruence. Qed.
Lemma busy_step c k s l s' a : at_work l = true -> estep c k s l = Some s' -> acts s l a = false -> busy k s a -> busy k s' a.
Proof.
  intros A E N B. destruct a as [|w]; cbn [busy] in *.
  - destruct B as [B1 B2]. destruct l as [l b x|g]; cbn [estep] in E.
    + destruct l as [|r|i r|i|]; try discriminate. destruct (dstep c (e_d s) (LWork i r)) as [d|] eqn:Ed; [|discriminate].
      assert (EM : e_d s' = d) by (destruct (gives (e_d s) _); [destruct (pool_step k (e_p s) _); try discriminate|]; now injection E as <-). rewrite EM. clear E EM. cbn [dstep] in Ed.
      destruct (nth_error (d_act (e_d s)) i) as [[|o rest]|]; try discriminate. destruct (op_enabled _ o); [|discriminate]. destruct (op_sem c (d_sh (e_d s)) o r) as [[[sh' new] enq] nt].
      injection Ed as <-. cbn [d_main]. now apply wake_stays.
    + destruct (existsb _ _ || _); [discriminate|]. destruct (pool_step k (e_p s) g); try discriminate. destruct (executes (e_p s) g) as [[v t]|]; [destruct (memb t _)|]; try (injection E as <-; now split).
      destruct (dstep c (e_d s) _) as [d|] eqn:Ed; [|discriminate]. injection E as <-. cbn [e_d]. cbn [dstep] in Ed. destruct (Nat.ltb _ _); [|discriminate]. destruct (nth_error _ _); [|discriminate]. injection Ed as <-. now split.
  - assert (ST : forall j, w = Sec j -> p_st (e_p s') j = p_st (e_p s) j).
    { intros j ->. destruct l as [l b x|g]; cbn [estep] in E.
      - destruct l as [|r|i r|i|]; try discriminate; (destruct (dstep c (e_d s) _) as [d|]; [|discriminate]);
          (destruct (gives (e_d s) _) as [e|]; [destruct (pool_step k (e_p s) _) as [| |p] eqn:Ep; try discriminate|]); injection E as <-; cbn [e_p]; trivial;
          (destruct (nsec_step k _ _ _ Ep) as (_ & _ & X); apply X; [reflexivity|discriminate]).
      - destruct (existsb _ _ || _); [discriminate|]. destruct (pool_step k (e_p s) g) as [| |p] eqn:Ep; try discriminate.
        assert (EP : e_p s' = p) by (destruct (executes (e_p s) g) as [[v t]|]; [destruct (memb t _); [destruct (dstep c (e_d s) _); [|discriminate]|]|]; now injection E as <-). rewrite EP.
        destruct (nsec_step k _ _ _ Ep) as (_ & _ & X). apply X; [destruct g; try discriminate; reflexivity|]. intros ok ->. cbn [acts] in N. now rewrite Nat.eqb_refl in N. }
    destruct B as [B|B]; [|right; destruct w as [i|j]; [exact B|rewrite (ST j eq_refl); exact B]]. left. destruct l as [l b x|g]; cbn [estep] in E.
    + destruct l as [|r|i r|i|]; try discriminate; (destruct (dstep c (e_d s) _) as [d|]; [|discriminate]).
      * destruct (gives (e_d s) _); [destruct (pool_step k (e_p s) _); try discriminate|]; injection E as <-; exact B.
      * assert (W : e_who s' = e_who s \/ e_who s' = remove_nth i (e_who s)).
        { destruct (gives (e_d s) _); [destruct (pool_step k (e_p s) _); try discriminate|]; injection E as <-; cbn [e_who]; destruct (Nat.ltb _ _); auto. }
        destruct W as [->| ->]; [exact B|]. cbn [acts] in N. destruct (nth_error (e_who s) i) as [v|] eqn:En.
        -- pose proof (nth_error_remove _ _ _ En) as Pm. apply (Permutation_in _ Pm) in B as [B|B]; [|exact B]. subst v. now rewrite thr_eqb_refl in N.
        -- assert (X : remove_nth i (e_who s) = e_who s); [|now rewrite X]. clear -En. revert En. generalize (e_who s). induction i as [|i IH]; intros [|y l] En; cbn in *; try discriminate; trivial. now rewrite IH.
    + destruct (existsb _ _ || _); [discriminate|]. destruct (pool_step k (e_p s) g); try discriminate. destruct (executes (e_p s) g) as [[v t]|]; [destruct (memb t _)|]; try (injection E as <-; exact B).
      destruct (dstep c (e_d s) _); [|discriminate]. injection E as <-. cbn [e_who]. apply in_or_app. now left.
Qed.
Lemma busy_run c k a : forall ls s s', forallb at_work ls = true -> erun c k s ls = Some s' -> acted c k s ls a = false -> busy k s a -> busy k s' a.
Proof.
  induction ls as [|l ls IH]; intros s s' A E N B; cbn [erun forallb acted] in *; [now injection E as <-|]. apply Bool.andb_true_iff in A as [A1 A2]. apply Bool.orb_false_iff in N as [N1 N2].
  destruct (estep c k s l) as [s1|] eqn:E1; [|discriminate]. apply (IH s1 s' A2 E N2). exact (busy_step c k s l s1 a A1 E1 N1 B).
Qed.
Lemma acted_app c k a l2 : forall l1 s s1, erun c k s l1 = Some s1 -> acted c k s (l1 ++ l2) a = acted c k s l1 a || acted c k s1 l2 a.
Proof.
  induction l1 as [|l l1 IH]; intros s s1 E; cbn [erun acted app] in *; [injection E as <-; reflexivity|]. destruct (estep c k s l) as [s2|]; [|discriminate]. rewrite (IH s2 s1 E). now rewrite Bool.orb_assoc.
Qed.
Lemma submit_ok k p t idx : pool_ready k p -> 0 < c_max k -> exists a p', pool_step k p (LSubmit t idx false a) = Next p'.
Proof.
  intros (R1 & R2 & R3 & R4) M. cbn [pool_step]. assert (X : exists r cur, dispatch k (p_cur p) idx false = Some (r, cur)).
  { unfold dispatch. destruct (idx =? -1)%Z; [|now eexists; eexists]. destruct (Nat.eqb_spec (c_max k) 0); [lia|]. now eexists; eexists. }
  destruct X as (r & cur & ->). destruct (dest k r).
  - exists 0. rewrite R1, R3. now eexists.
  - exists 0. now eexists.
  - exists (S (list_max (map fst (p_prio p)))). unfold push_prio. cbn [set_cur p_prio]. destruct (memb _ _) eqn:Mb; [|now eexists]. exfalso. apply memb_in in Mb.
    pose proof (proj1 (list_max_le (map fst (p_prio p)) _) (le_n _)) as F. rewrite Forall_forall in F. specialize (F _ Mb). lia.
Qed.
Lemma edyn_ok c k s l d : l <> LRun -> (forall i, l <> LPick i) -> pool_ready k (e_p s) -> 0 < c_max k -> dstep c (e_d s) l = Some d -> exists a s', estep c k s (EDyn l false a) = Some s' /\ e_d s' = d.
Proof.
  intros NR NP R M D. cbn [estep]. destruct (gives (e_d s) l) as [e|] eqn:G.
  - destruct (submit_ok k (e_p s) e (c_bind c e) R M) as (a & p' & Ep). exists a. destruct l; try congruence; rewrite D, Ep; eexists; (split; [reflexivity|reflexivity]).
  - exists 0. destruct l; try congruence; rewrite D; eexists; (split; [reflexivity|reflexivity]).
Qed.
Lemma main_ok c d : d_main d <> MAsleep -> d_main d <> MIdle -> exists d', dstep c d (LMain st_default) = Some d'.
Proof.
  intros N1 N2. cbn [dstep]. destruct (d_main d) as [| | |[|o p]|[|n]| | | | | |]; try congruence; try (now eexists). destruct (op_sem c (d_sh d) o st_default) as [[[sh' new] enq] nt]. now eexists.
Qed.
(** Steps in which no element reports an error *)
Definition calm (l : elabel) : bool := at_work l && match l with EDyn (LMain r) _ _ | EDyn (LWork _ r) _ _ => isOK r | _ => true end.
Lemma calm_work ls : forallb calm ls = true -> forallb at_work ls = true.
Proof. rewrite !forallb_forall. intros H l Hl. specialize (H l Hl). unfold calm in H. now apply Bool.andb_true_iff in H as [H _]. Qed.
Lemma calm_may ls : forallb calm ls = true -> forallb may_happen ls = true.
Proof. intros H. apply calm_work in H. rewrite forallb_forall in *. intros l Hl. unfold may_happen. now rewrite (H l Hl). Qed.
Lemma calm_hits ls : forallb calm ls = true -> hits ls = 0.
Proof.
  intros H. apply calm_work in H. unfold hits. induction ls as [|l ls IH]; [reflexivity|]. cbn [forallb filter] in *. apply Bool.andb_true_iff in H as [H1 H2].
  replace (disturbs l) with false; [now apply IH|]. destruct l as [[]|[]]; try discriminate; trivial; cbn in *; now subst.
Qed.
Lemma calm_op c sh o r sh' new enq nt : isOK r = true -> noerr (sh_tr sh) -> op_sem c sh o r = (sh', new, enq, nt) -> noerr (sh_tr sh').
Proof.
  intros OK N E. assert (X : exists x, sh_tr sh' = sh_tr sh ++ x /\ forall e q, In (GFinish e q) x -> q = r).
  { destruct o as [x aff|x|x|x|x r0| |x|x l res|x|]; cbn [op_sem] in E.
    - destruct (isErr (sh_stat sh)); [|destruct (aff && is_default c x)]; injection E as <- <- <- <-; exists []; cbn; (split; [now rewrite app_nil_r|easy]).
    - injection E as <- <- <- <-. exists []. cbn. split; [now rewrite app_nil_r|easy].
    - injection E as <- <- <- <-. eexists. split; [reflexivity|]. intros e q [H|[]]. discriminate.
    - destruct (isErr r); injection E as <- <- <- <-; eexists; (split; [reflexivity|]); intros e q [H|[]]; now injection H.
    - injection E as <- <- <- <-. exists []. cbn. split; [now rewrite app_nil_r|easy].
    - injection E as <- <- <- <-. exists []. cbn. split; [now rewrite app_nil_r|easy].
    - destruct (isErr (sh_stat sh)); [|destruct (calc_shape (c_g c) (c_bind c) x)]; injection E as <- <- <- <-; exists []; cbn; (split; [now rewrite app_nil_r|easy]).
    - destruct l as [|y l]; [destruct res|destruct ((sh_left sh y - 1 =? 0)%Z); [destruct res|]]; injection E as <- <- <- <-; exists []; cbn; (split; [now rewrite app_nil_r|easy]).
    - injection E as <- <- <- <-. exists []. cbn. split; [now rewrite app_nil_r|easy].
    - injection E as <- <- <- <-. exists []. cbn. split; [now rewrite app_nil_r|easy]. }
  destruct X as (x & -> & X). intros e q H. apply in_app_iff in H as [H|H]; [exact (N e q H)|]. rewrite (X e q H). unfold isOK in OK. apply Z.eqb_eq in OK. rewrite OK. unfold STATUS_OK. lia.
Qed.
Lemma calm_dstep c d l d' : match l with LMain r | LWork _ r => isOK r = true | LRun => False | _ => True end -> noerr (sh_tr (d_sh d)) -> dstep c d l = Some d' -> noerr (sh_tr (d_sh d')).
Proof.
  intros OK N E. destruct l as [|r|i r|i|]; [contradiction| | | |]; cbn [dstep] in E.
  - destruct (d_main d) as [| | |[|o p]|[|n]| | | | | |] eqn:Em; try discriminate; try (injection E as <-; exact N).
    + injection E as <-. cbn. destruct (isOK (sh_stat (d_sh d))); exact N.
    + destruct (op_sem c (d_sh d) o r) as [[[sh' new] enq] nt] eqn:Eo. injection E as <-. exact (calm_op c _ _ _ _ _ _ _ OK N Eo).
  - destruct (nth_error (d_act d) i) as [[|o rest]|]; try discriminate. destruct (op_enabled (d_main d) o); [|discriminate].
    destruct (op_sem c (d_sh d) o r) as [[[sh' new] enq] nt] eqn:Eo. injection E as <-. exact (calm_op c _ _ _ _ _ _ _ OK N Eo).
  - destruct (Nat.ltb _ _); [|discriminate]. destruct (nth_error _ _); [|discriminate]. now injection E as <-.
  - destruct (d_main d); try discriminate. now injection E as <-.
Qed.
Lemma calm_step c k s l s' : calm l = true -> noerr (trace (e_d s)) -> estep c k s l = Some s' -> noerr (trace (e_d s')).
Proof.
  intros C N E. apply Bool.andb_true_iff in C as [A C]. destruct l as [l b x|g]; cbn [estep] in E.
  - destruct l as [|r|i r|i|]; try discriminate; (destruct (dstep c (e_d s) _) as [d|] eqn:Ed; [|discriminate]); (assert (EM : e_d s' = d) by (destruct (gives (e_d s) _); [destruct (pool_step k (e_p s) _); try discriminate|]; now injection E as <-));
      rewrite EM; refine (calm_dstep c _ _ _ _ N Ed); exact C.
  - destruct (existsb _ _ || _); [discriminate|]. destruct (pool_step k (e_p s) g); try discriminate. destruct (executes (e_p s) g) as [[v t]|]; [destruct (memb t _)|]; try (injection E as <-; exact N).
    destruct (dstep c (e_d s) _) as [d|] eqn:Ed; [|discriminate]. injection E as <-. exact (calm_dstep c _ (LPick _) _ I N Ed).
Qed.
Lemma calm_run c k : forall ls s s', forallb calm ls = true -> noerr (trace (e_d s)) -> erun c k s ls = Some s' -> noerr (trace (e_d s')).
Proof.
  induction ls as [|l ls IH]; intros s s' A N E; cbn [erun forallb] in *; [now injection E as <-|]. apply Bool.andb_true_iff in A as [A1 A2].
  destruct (estep c k s l) as [s1|] eqn:E1; [|discriminate]. exact (IH s1 s' A2 (calm_step c k s l s1 A1 N E1) E).
Qed.
(** The caller of run gives the mutex back *)
(** Actions of the engine alone *)
Definition mine (l : elabel) : bool := match l with EDyn _ _ _ => true | _ => false end.
Definition inner (l : elabel) : bool := calm l && mine l.
Lemma inner_calm ls : forallb inner ls = true -> forallb calm ls = true.
Proof. intros H. apply forallb_forall. intros l Hl. apply (proj1 (forallb_forall _ _) H) in Hl. now apply Bool.andb_true_iff in Hl. Qed.
Lemma unlocks c k s : exists ls s', forallb inner ls = true /\ erun c k s ls = Some s' /\ e_who s' = e_who s /\ d_act (e_d s') = d_act (e_d s) /\ holds_mutex (d_main (e_d s')) = false.
Proof.
  assert (ST : forall s0, holds_mutex (d_main (e_d s0)) = true -> exists s1, estep c k s0 (EDyn (LMain st_default) false 0) = Some s1 /\ e_who s1 = e_who s0 /\ d_act (e_d s1) = d_act (e_d s0) /\
     d_main (e_d s1) = match d_main (e_d s0) with MEvalFin => if Nat.leb (total_end c) (sh_fin (d_sh (e_d s0))) then MRet else MEvalErr | MEvalErr => if isErr (sh_stat (d_sh (e_d s0))) then MRet else MPreSleep | _ => MAsleep end).
  { intros s0 H. cbn [estep dstep gives]. destruct (d_main (e_d s0)) eqn:Em; try discriminate; (eexists; split; [reflexivity|cbn; now repeat split]). }
  assert (P3 : forall s0, d_main (e_d s0) = MPreSleep -> exists ls s', forallb inner ls = true /\ erun c k s0 ls = Some s' /\ e_who s' = e_who s0 /\ d_act (e_d s') = d_act (e_d s0) /\ holds_mutex (d_main (e_d s')) = false).
  { intros s0 Em. destruct (ST s0) as (s1 & E & W & D & M); [now rewrite Em|]. rewrite Em in M. exists [EDyn (LMain st_default) false 0], s1. cbn [forallb inner calm mine at_work isOK st_default code andb erun]. rewrite E. repeat split; trivial. now rewrite M. }
  assert (P2 : forall s0, d_main (e_d s0) = MEvalErr -> exists ls s', forallb inner ls = true /\ erun c k s0 ls = Some s' /\ e_who s' = e_who s0 /\ d_act (e_d s') = d_act (e_d s0) /\ holds_mutex (d_main (e_d s')) = false).
  { intros s0 Em. destruct (ST s0) as (s1 & E & W & D & M); [now rewrite Em|]. rewrite Em in M. destruct (isErr (sh_stat (d_sh (e_d s0)))).
    - exists [EDyn (LMain st_default) false 0], s1. cbn [forallb inner calm mine at_work isOK st_default code andb erun]. rewrite E. repeat split; trivial. now rewrite M.
    - destruct (P3 s1 M) as (ls & s2 & A & R & W2 & D2 & H2). exists (EDyn (LMain st_default) false 0 :: ls), s2. cbn [forallb inner calm mine at_work isOK st_default code andb erun]. rewrite E. repeat split; trivial; congruence. }
  destruct (d_main (e_d s)) eqn:Em; try (exists [], s; rewrite Em; now repeat split); [|now apply P2|now apply P3].
  destruct (ST s) as (s1 & E & W & D & M); [now rewrite Em|]. rewrite Em in M. destruct (Nat.leb (total_end c) (sh_fin (d_sh (e_d s)))).
  - exists [EDyn (LMain st_default) false 0], s1. cbn [forallb inner calm mine at_work isOK st_default code andb erun]. rewrite E. repeat split; trivial. now rewrite M.
  - destruct (P2 s1 M) as (ls & s2 & A & R & W2 & D2 & H2). exists (EDyn (LMain st_default) false 0 :: ls), s2. cbn [forallb inner calm mine at_work isOK st_default code andb erun]. rewrite E. repeat split; trivial; congruence.
Qed.
Definition ready_to_go (c : dcfg) (k : cfg) (s : eng) : Prop :=
  good c k s /\ who_ok k s /\ (exists h, erun c k (eng_new c) h = Some s) /\ c_def k + p_nsec (e_p s) <= c_workers c.
Lemma erun_cat c k l1 : forall s s1 l2, erun c k s l1 = Some s1 -> erun c k s (l1 ++ l2) = erun c k s1 l2.
Proof. induction l1 as [|l l1 IH]; intros s s1 l2 E; cbn [erun app] in *; [now injection E as <-|]. destruct (estep c k s l); [|discriminate]. now apply IH. Qed.
Lemma go_step c k s l s' : wf (c_g c) -> acyclic (c_g c) -> ready_to_go c k s -> at_work l = true -> estep c k s l = Some s' -> ready_to_go c k s'.
Proof.
  intros Hwf Ha (G & W & (h & H) & N) A E. split; [exact (good_step c k s l s' Hwf Ha G A E)|]. split; [exact (who_step c k s l s' (go_p _ _ _ G) W E)|]. split.
  - exists (h ++ [l]). rewrite (erun_cat c k h _ _ _ H). cbn [erun]. now rewrite E.
  - assert (X : p_nsec (e_p s') = p_nsec (e_p s)); [|lia]. destruct (work_cases c k s l s' A E) as [(dl & _ & _ & _ & [->|(g & P & [(t & i & b & x & ->)|L])])|(g & _ & L & _ & _ & P & _)]; trivial.
    + destruct (nsec_step k _ _ _ P) as (_ & X & _). now apply X.
    + destruct (nsec_step k _ _ _ P) as (_ & X & _). now apply X, lucky_works.
    + destruct (nsec_step k _ _ _ P) as (_ & X & _). now apply X, lucky_works.
Qed.
Lemma go_run c k : wf (c_g c) -> acyclic (c_g c) -> forall ls s s', ready_to_go c k s -> forallb at_work ls = true -> erun c k s ls = Some s' -> ready_to_go c k s'.
Proof.
  intros Hwf Ha. induction ls as [|l ls IH]; intros s s' G A E; cbn [erun forallb] in *; [now injection E as <-|]. apply Bool.andb_true_iff in A as [A1 A2].
  destruct (estep c k s l) as [s1|] eqn:E1; [|discriminate]. apply (IH s1 s'); trivial. exact (go_step c k s l s1 Hwf Ha G A1 E1).
Qed.
Lemma few who k p w : NoDup who -> (forall v, In v who -> place k p v) -> ~ In w who -> place k p w -> length who < c_def k + p_nsec p.
Proof.
  intros N P NI W. assert (I : incl (w :: who) (map Prim (seq 0 (c_def k)) ++ map Sec (seq 0 (p_nsec p)))).
  { intros v Hv. assert (Q : place k p v) by (destruct Hv as [<-|Hv]; [exact W|now apply P]). apply in_or_app. destruct v; [left|right]; apply in_map, in_seq; cbn [place] in Q; lia. }
  apply NoDup_incl_length in I; [|now constructor]. rewrite app_length, !map_length, !seq_length in I. cbn [length] in I. lia.
Qed.
(** Whoever is not resting gets to act: a thread inside an element ... *)
Lemma act_inside c k s w : wf (c_g c) -> acyclic (c_g c) -> 0 < c_max k -> ready_to_go c k s -> In w (e_who s) -> exists ls s', forallb inner ls = true /\ erun c k s ls = Some s' /\ acted c k s ls (InPool w) = true.
Proof.
  intros Hwf Ha M (G & (WN & WP) & (h & H) & LE) IN.
  destruct (unlocks c k s) as (ls & s1 & A & E & W1 & D1 & HM). pose proof (go_run c k Hwf Ha ls s s1 (conj G (conj (conj WN WP) (conj (ex_intro _ h H) LE))) (calm_work _ (inner_calm _ A)) E) as (G1 & _).
  rewrite <- W1 in IN. apply In_nth_error in IN as (i & IN). destruct (go_e _ _ _ G1) as (hd & hp & I1). pose proof (to_len _ _ _ (ei_t _ _ _ _ _ I1)) as TL.
  assert (X : exists p, nth_error (d_act (e_d s1)) i = Some p).
  { destruct (nth_error (d_act (e_d s1)) i) eqn:En; [now eexists|]. apply nth_error_None in En. assert (i < length (e_who s1)) by (apply nth_error_Some; congruence). lia. }
  destruct X as (p & En). pose proof (v_progs c _ (go_i _ _ _ G1) p (nth_error_In _ _ En)) as NE. destruct p as [|o rest]; [congruence|].
  assert (D : exists d, dstep c (e_d s1) (LWork i st_default) = Some d).
  { cbn [dstep]. rewrite En. replace (op_enabled (d_main (e_d s1)) o) with true by (destruct o; cbn [op_enabled]; trivial; now rewrite HM).
    destruct (op_sem c (d_sh (e_d s1)) o st_default) as [[[sh' new] enq] nt]. now eexists. }
  destruct D as (d & D). destruct (edyn_ok c k s1 (LWork i st_default) d) as (a & s2 & E2 & _); trivial; try discriminate; [exact (go_r _ _ _ G1)|].
  exists (ls ++ [EDyn (LWork i st_default) false a]), s2. split; [rewrite forallb_app, A; reflexivity|]. split; [rewrite (erun_cat c k _ _ _ _ E); cbn [erun]; now rewrite E2|].
  rewrite (acted_app c k _ _ ls s s1 E). cbn [acted acts]. rewrite IN, thr_eqb_refl. apply Bool.orb_true_r.
Qed.
(** ... a thread that is not inside an element ... *)
Lemma act_free c k s w : good c k s -> match w with Prim i => i < c_def k | Sec j => p_st (e_p s) j <> SExit end ->
  exists g p, pool_step k (e_p s) g = Next p /\ lucky g = true /\ given1 g = [] /\ match g with LPrim i _ => w = Prim i | LSec j _ => w = Sec j | _ => False end /\ place k (e_p s) w.
Proof.
  intros G B. destruct (go_r _ _ _ G) as (R1 & R2 & _). destruct w as [i|j].
  - exists (LPrim i true). destruct (lv_p _ _ (go_l _ _ _ G) R1 i B) as [L1 L2]. assert (Y : exists p, prim_step k (e_p s) i true = Next p).
    { unfold prim_step. destruct (p_pt (e_p s) i) as [| |[|n]|[|x r]|]; try congruence; try (now eexists).
      - destruct (p_lk (e_p s) i), (own_take k (p_wsq (e_p s) i)) as [[|x a] b]; now eexists.
      - destruct (nth_error (targets k i) n) as [m|]; [destruct (p_lk (e_p s) m), (steal_take k (p_wsq (e_p s) m)) as [[|x a] b]; now eexists|].
        destruct (pool_take k (p_q (e_p s))) as [[|x a] b]; now eexists.
      - specialize (R2 i B). specialize (L2 eq_refl). congruence. }
    destruct Y as (p & Y). exists p. split; [exact Y|]. split; [reflexivity|]. split; [reflexivity|]. split; [reflexivity|exact B].
  - exists (LSec j true). assert (Y : exists p, sec_step k (e_p s) j true = Next p).
    { unfold sec_step. destruct (p_st (e_p s) j) as [| | | |[|x r]|]; try congruence; try (now eexists).
      - destruct (pool_take k (p_q (e_p s))) as [[|x a] b]; now eexists.
      - destruct (prio_take (p_prio (e_p s))) as [[|x a] b]; now eexists.
      - destruct (p_q (e_p s)); now eexists. }
    destruct Y as (p & Y). exists p. split; [exact Y|]. split; [reflexivity|]. split; [reflexivity|]. split; [reflexivity|].
    cbn [place]. destruct (Nat.lt_ge_cases j (p_nsec (e_p s))) as [Z|Z]; [exact Z|]. now rewrite (iv_sec _ _ (go_p _ _ _ G) j Z) in B.
Qed.
Lemma free_not_inside who w g : match g with LPrim i _ => w = Prim i | LSec j _ => w = Sec j | _ => False end -> ~ In w who -> inside who g = false.
Proof.
  intros Hg NI. destruct (inside who g) eqn:IG; trivial. exfalso. apply NI. destruct g; try contradiction; subst w; cbn [inside] in IG; apply existsb_exists in IG as (v & V & Hv); now apply thr_eqb_eq in Hv as <-.
Qed.
(** ... and the caller *)
Lemma can_act c k s a : wf (c_g c) -> acyclic (c_g c) -> 0 < c_max k -> ready_to_go c k s -> busy k s a -> exists ls s', forallb calm ls = true /\ erun c k s ls = Some s' /\ acted c k s ls a = true.
Proof.
  intros Hwf Ha M RG B. pose proof RG as (G & (WN & WP) & (h & H) & LE). destruct a as [|w]; cbn [busy] in B.
  - destruct B as [B1 B2]. destruct (main_ok c (e_d s) B1 B2) as (d & D). destruct (edyn_ok c k s (LMain st_default) d) as (a & s' & E & _); trivial; try discriminate; [exact (go_r _ _ _ G)|].
    exists [EDyn (LMain st_default) false a], s'. cbn [forallb andb erun acted acts orb]. now rewrite E.
  - assert (IN : In w (e_who s) \/ ~ In w (e_who s)).
    { destruct (existsb (thr_eqb w) (e_who s)) eqn:X; [left; apply existsb_exists in X as (v & V & Hv); now apply thr_eqb_eq in Hv as <-|right; intros Hw].
      assert (existsb (thr_eqb w) (e_who s) = true) by (apply existsb_exists; exists w; split; [exact Hw|apply thr_eqb_refl]). congruence. }
    destruct IN as [IN|NI].
    + destruct (act_inside c k s w Hwf Ha M RG IN) as (ls & s' & A & E & X). exists ls, s'. split; [now apply inner_calm|now split].
    + destruct B as [B|B]; [contradiction|]. destruct (act_free c k s w G B) as (g & p & E & L & GV & GW & PL). pose proof (free_not_inside (e_who s) w g GW NI) as IG.
      destruct (go_e _ _ _ G) as (hd & hp & I1). pose proof (to_len _ _ _ (ei_t _ _ _ _ _ I1)) as TL.
      destruct (C108_taken c k h s g p H E IG) as (s' & E' & _); [rewrite GV; easy|pose proof (few (e_who s) k (e_p s) w WN WP NI PL); lia|].
      exists [EPool g], s'. split; [destruct g; try discriminate; cbn in L |- *; now rewrite L|]. split; [cbn [erun]; now rewrite E'|]. cbn [acted]. destruct g; try contradiction; subst w; cbn [acts]; now rewrite Nat.eqb_refl.
Qed.
(** So a round of everyone exists *)
Lemma round_of c k : wf (c_g c) -> acyclic (c_g c) -> 0 < c_max k -> forall L s, ready_to_go c k s ->
  exists ls s', forallb calm ls = true /\ erun c k s ls = Some s' /\ forall a, In a L -> resting k s a \/ acted c k s ls a = true.
Proof.
  intros Hwf Ha M. induction L as [|a L IH]; intros s G; [exists [], s; now repeat split|]. destruct (IH s G) as (ls & s1 & A & E & F).
  destruct (busy_or k s a) as [B|B]; [|exists ls, s1; split; [exact A|]; split; [exact E|]; intros b [<-|Hb]; [now left|now apply F]].
  destruct (acted c k s ls a) eqn:AC; [exists ls, s1; split; [exact A|]; split; [exact E|]; intros b [<-|Hb]; [now right|now apply F]|].
  pose proof (busy_run c k a ls s s1 (calm_work _ A) E AC B) as B1. destruct (can_act c k s1 a Hwf Ha M (go_run c k Hwf Ha ls s s1 G (calm_work _ A) E) B1) as (l2 & s2 & A2 & E2 & AC2).
  exists (ls ++ l2), s2. split; [now rewrite forallb_app, A, A2|]. split; [now rewrite (erun_cat c k _ _ _ _ E)|]. intros b Hb. rewrite (acted_app c k b l2 ls s s1 E).
  destruct Hb as [<-|Hb]; [right; rewrite AC2; apply Bool.orb_true_r|]. destruct (F b Hb) as [X|X]; [now left|right; now rewrite X].
Qed.
Lemma rounds_exist c k : wf (c_g c) -> acyclic (c_g c) -> 0 < c_max k -> forall n s, ready_to_go c k s -> noerr (trace (e_d s)) -> exists s', fair_rounds c k s n 0 s' /\ noerr (trace (e_d s')).
Proof.
  intros Hwf Ha M. induction n as [|n IH]; intros s G N; [exists s; split; [constructor|exact N]|].
  destruct (round_of c k Hwf Ha M (Caller :: map InPool (e_who s) ++ map (fun i => InPool (Prim i)) (seq 0 (c_def k)) ++ map (fun j => InPool (Sec j)) (seq 0 (p_nsec (e_p s)))) s G) as (ls & s1 & A & E & F).
  destruct (IH s1 (go_run c k Hwf Ha ls s s1 G (calm_work _ A) E) (calm_run c k ls s s1 A N E)) as (s2 & R & N2). exists s2. split; [|exact N2]. rewrite <- (calm_hits ls A), <- (Nat.add_0_r (hits ls)). refine (fr_next c k s ls s1 n 0 s2 E (conj (calm_may _ A) _) R). intros a. destruct (busy_or k s a) as [B|B]; [|now left]. apply F.
  destruct a as [|w]; [now left|right]. cbn [busy] in B. apply in_or_app. destruct B as [B|B]; [left; now apply in_map|right]. apply in_or_app. destruct w as [i|j]; [left|right].
  - apply (in_map (fun i => InPool (Prim i))), in_seq. lia.
  - apply (in_map (fun j => InPool (Sec j))), in_seq. destruct (Nat.lt_ge_cases j (p_nsec (e_p s))) as [Z|Z]; [lia|]. destruct G as (G & _). now rewrite (iv_sec _ _ (go_p _ _ _ G) j Z) in B.
Qed.
