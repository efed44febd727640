From Verif Require Import EngPoolSpec DynProofs PoolProofs BindProofs.
From Coq Require Import Lia.
Local Open Scope list_scope.

Lemma nth_remove {A} : forall i (l : list A) j x, nth_error (remove_nth i l) j = Some x -> nth_error l (if Nat.ltb j i then j else S j) = Some x.
Proof.
  induction i as [|i IH]; intros l j x H.
  - destruct l as [|y l]; cbn [remove_nth] in H; [now destruct j|]. exact H.
  - destruct l as [|y l]; cbn [remove_nth] in H; [now destruct j|]. destruct j as [|j]; [exact H|]. cbn [nth_error] in H. specialize (IH l j x H).
    change (Nat.ltb (S j) (S i)) with (Nat.ltb j i). destruct (Nat.ltb j i); exact IH.
Qed.
Lemma nth_replace {A} : forall i (l : list A) j x y, nth_error (replace_nth i y l) j = Some x -> (j = i /\ x = y) \/ (j <> i /\ nth_error l j = Some x).
Proof.
  induction i as [|i IH]; intros [|z l] j x y H; cbn [replace_nth] in H; try (now destruct j).
  - destruct j as [|j]; [left; now injection H as <-|right; now split].
  - destruct j as [|j]; [right; now split|]. destruct (IH l j x y H) as [[-> ->]|[D E]]; [now left|right; split; [congruence|exact E]].
Qed.
Lemma remove_nth_length {A} : forall i (l : list A) x, nth_error l i = Some x -> S (length (remove_nth i l)) = length l.
Proof. induction i as [|i IH]; intros [|y l] x H; try discriminate; cbn [remove_nth length]; [reflexivity|]. f_equal. now apply (IH l x). Qed.
Lemma replace_nth_length {A} : forall i (l : list A) y, length (replace_nth i y l) = length l.
Proof. induction i as [|i IH]; intros [|z l] y; cbn [replace_nth length]; trivial. now rewrite IH. Qed.
Lemma index_of_nth e : forall l, In e l -> nth_error l (index_of e l) = Some e.
Proof.
  induction l as [|x r IH]; intros H; [destruct H|]. cbn [index_of]. destruct H as [H|H].
  - subst x. now rewrite Nat.eqb_refl.
  - destruct (Nat.eqb_spec x e) as [->|D]; [reflexivity|]. now apply IH.
Qed.

(** The programs of the engine: a bound element is started only at the beginning of its own task *)
Record threads_ok (c : dcfg) (A : thr -> nat -> Prop) (s : eng) : Prop :=
  { to_len : length (e_who s) = length (d_act (e_d s));
    to_act : forall i p e, nth_error (d_act (e_d s)) i = Some p -> In (OExec e) p -> is_default c e = true \/ (p = [OExec e] /\ exists w, nth_error (e_who s) i = Some w /\ A w e);
    to_main : forall p e, d_main (e_d s) = MRun p -> In (OExec e) p -> is_default c e = true }.
(** What an action adds to a program *)
Lemma op_sem_exec c sh o r sh' new enq nt e : op_sem c sh o r = (sh', new, enq, nt) -> In (OExec e) new -> is_default c e = true.
Proof.
  intros E H. destruct o as [x aff|x|x|x|x r0| |x|x l res|x|]; cbn [op_sem] in E.
  - destruct (isErr (sh_stat sh)); [injection E as <- <- <- <-; contradiction|]. destruct (aff && is_default c x) eqn:B; injection E as <- <- <- <-; destruct H as [H|[]]; try discriminate.
    injection H as <-. now apply andb_prop in B.
  - injection E as <- <- <- <-. contradiction.
  - injection E as <- <- <- <-. destruct H as [H|[]]; discriminate.
  - destruct (isErr r); injection E as <- <- <- <-; [destruct H as [H|[H|[]]]|destruct H as [H|[]]]; discriminate.
  - injection E as <- <- <- <-. contradiction.
  - injection E as <- <- <- <-. contradiction.
  - destruct (isErr (sh_stat sh)); [injection E as <- <- <- <-; contradiction|]. destruct (calc_shape (c_g c) (c_bind c) x); injection E as <- <- <- <-.
    + destruct H as [H|[]]; discriminate.
    + destruct (succ (c_g c) x); [contradiction|]. destruct H as [H|[]]; discriminate.
    + apply in_map_iff in H as (y & H & _). discriminate.
    + destruct H as [H|[]]; discriminate.
  - destruct l as [|y l].
    + destruct res; injection E as <- <- <- <-; [destruct H as [H|[]]; discriminate|contradiction].
    + destruct ((sh_left sh y - 1 =? 0)%Z); [destruct res|]; injection E as <- <- <- <-; [destruct H as [H|[H|[]]]|destruct H as [H|[]]|destruct H as [H|[]]]; discriminate.
  - injection E as <- <- <- <-. match type of H with In _ (if ?b then _ else _) => destruct b end; [destruct H as [H|[]]; discriminate|contradiction].
  - injection E as <- <- <- <-. contradiction.
Qed.
Lemma wake_run nt m p : wake nt m = MRun p -> m = MRun p.
Proof. destruct m; cbn; trivial. now destruct nt. Qed.
Lemma front_ops_exec g e : ~ In (OExec e) (front_ops g).
Proof. unfold front_ops. intros H. apply in_map_iff in H as (y & H & _). discriminate. Qed.
Lemma to_dyn c A s l d : threads_ok c A s -> (forall i, l <> LPick i) -> dstep c (e_d s) l = Some d ->
  threads_ok c A (mkE d (e_p s) (match l with LWork i _ => if Nat.ltb (length (d_act d)) (length (d_act (e_d s))) then remove_nth i (e_who s) else e_who s | _ => e_who s end)).
Proof.
  intros [L T M] NP E. destruct l as [|r|i r|i|]; cbn [dstep] in E.
  - destruct (d_main (e_d s)) eqn:Em; try discriminate. injection E as <-. constructor; cbn; trivial. intros p e F. discriminate.
  - assert (K : d_act d = d_act (e_d s) /\ (forall p e, d_main d = MRun p -> In (OExec e) p -> is_default c e = true)).
    { destruct (d_main (e_d s)) as [| | |[|o p]|[|n]| | | | | |] eqn:Em; try discriminate.
      - injection E as <-. cbn. split; [reflexivity|]. intros q e F. discriminate.
      - injection E as <-. cbn. split; [reflexivity|]. intros q e F H. injection F as <-. now apply front_ops_exec in H.
      - injection E as <-. cbn. split; [reflexivity|]. intros q e F. discriminate.
      - destruct (op_sem c (d_sh (e_d s)) o r) as [[[sh' new] enq] nt] eqn:Eo. injection E as <-. cbn. split; [reflexivity|]. intros q e F H. injection F as <-.
        apply in_app_or in H as [H|H]; [now apply (op_sem_exec c _ _ _ _ _ _ _ e Eo)|]. apply (M (o :: p)); trivial. now right.
      - injection E as <-. cbn. split; [reflexivity|]. intros q e F. discriminate.
      - injection E as <-. cbn. split; [reflexivity|]. intros q e F. destruct (Nat.leb _ _); discriminate.
      - injection E as <-. cbn. split; [reflexivity|]. intros q e F. discriminate.
      - injection E as <-. cbn. split; [reflexivity|]. intros q e F. destruct (Nat.leb _ _); discriminate.
      - injection E as <-. cbn. split; [reflexivity|]. intros q e F. destruct (isErr _); discriminate.
      - injection E as <-. cbn. split; [reflexivity|]. intros q e F. discriminate.
      - injection E as <-. cbn. split; [reflexivity|]. intros q e F. discriminate. }
    destruct K as [K1 K2]. constructor; cbn [e_d e_who]; try rewrite K1; trivial.
  - destruct (nth_error (d_act (e_d s)) i) as [[|o rest]|] eqn:En; try discriminate. destruct (op_enabled (d_main (e_d s)) o); [|discriminate].
    destruct (op_sem c (d_sh (e_d s)) o r) as [[[sh' new] enq] nt] eqn:Eo. injection E as <-. cbn [d_act].
    assert (LW : i < length (e_who s)) by (rewrite L; apply nth_error_Some; congruence).
    destruct (nth_error (e_who s) i) as [w|] eqn:Ew; [|apply nth_error_None in Ew; lia].
    destruct (new ++ rest) as [|o1 p1] eqn:Ep.
    + pose proof (remove_nth_length i (d_act (e_d s)) _ En) as R1. pose proof (remove_nth_length i (e_who s) w Ew) as R2.
      destruct (Nat.ltb_spec (length (remove_nth i (d_act (e_d s)))) (length (d_act (e_d s)))) as [_|F]; [|lia]. constructor; cbn [e_d e_who d_act d_main].
      * lia.
      * intros j p e Hj Hp. destruct (T (if Nat.ltb j i then j else S j) p e) as [D|(Q & w' & W1 & W2)]; [now apply nth_remove|exact Hp|now left|].
        right. split; [exact Q|]. exists w'. split; [|exact W2].
        clear - W1 Hj L R1 R2. assert (Hlt : j < length (remove_nth i (e_who s))) by (assert (j < length (remove_nth i (d_act (e_d s)))) by (apply nth_error_Some; congruence); lia).
        destruct (nth_error (remove_nth i (e_who s)) j) as [y|] eqn:Ey; [|apply nth_error_None in Ey; lia]. apply nth_remove in Ey. congruence.
      * intros p e F. apply wake_run in F. now apply M.
    + rewrite replace_nth_length, Nat.ltb_irrefl. constructor; cbn [e_d e_who d_act d_main].
      * now rewrite replace_nth_length.
      * intros j p e Hj Hp. destruct (nth_replace i _ j p _ Hj) as [[-> ->]|[D Hj']]; [|now apply (T j)].
        left. rewrite <- Ep in Hp. apply in_app_or in Hp as [Hp|Hp]; [now apply (op_sem_exec c _ _ _ _ _ _ _ e Eo)|].
        destruct (T i (o :: rest) e En) as [D|(Q & _)]; [now right|exact D|]. injection Q as -> ->. contradiction.
      * intros p e F. apply wake_run in F. now apply M.
  - exfalso. now apply (NP i).
  - destruct (d_main (e_d s)) eqn:Em; try discriminate. injection E as <-. constructor; cbn; trivial. intros p e F. discriminate.
Qed.
Lemma to_pick c A s i d p w e : threads_ok c A s -> dstep c (e_d s) (LPick i) = Some d -> nth_error (d_pool (e_d s)) i = Some e -> A w e ->
  threads_ok c A (mkE d p (e_who s ++ [w])).
Proof.
  intros [L T M] E En HA. cbn [dstep] in E. destruct (Nat.ltb _ _); [|discriminate]. rewrite En in E. injection E as <-. constructor; cbn [e_d e_who d_act d_main].
  - rewrite !app_length. cbn. lia.
  - intros j q x Hj Hq. destruct (Nat.lt_ge_cases j (length (d_act (e_d s)))) as [J|J].
    + rewrite nth_error_app1 in Hj by trivial. destruct (T j q x Hj Hq) as [D|(Q & w' & W1 & W2)]; [now left|]. right. split; [exact Q|]. exists w'. split; [|exact W2].
      rewrite nth_error_app1; [exact W1|lia].
    + rewrite nth_error_app2 in Hj by trivial. destruct (j - length (d_act (e_d s))) as [|m] eqn:Ej; [|destruct m; discriminate]. cbn in Hj. injection Hj as <-.
      destruct Hq as [Hq|[]]. injection Hq as <-. right. split; [reflexivity|]. exists w. split; [|exact HA]. rewrite nth_error_app2 by lia. now replace (j - length (e_who s)) with 0 by lia.
  - exact M.
Qed.

(** The tasks of the pool that somebody still has to execute *)
Lemma executes_log c s l s' : pool_step c s l = Next s' -> p_log s' = match executes s l with Some (_, t) => t :: p_log s | None => p_log s end.
Proof.
  intros E. destruct l as [|t idx busy a|p t tid en lk|u t prio a|u n|u|j ok|j ok|j|j|j|]; cbn [pool_step executes] in *.
  - injection E as <-. unfold pool_init. destruct (p_init s); trivial. match goal with |- p_log (spawn ?k ?s0) = _ => now destruct (spawn_keeps k s0) as (_ & _ & ->) end.
  - destruct (dispatch c (p_cur s) idx busy) as [[r cur']|]; [|discriminate]. destruct (dest c r) as [k| |].
    + destruct (p_init s); [|discriminate]. destruct (p_lk s k); [discriminate|]. now injection E as <-.
    + now injection E as <-.
    + unfold push_prio in E. destruct (memb a _); [discriminate|]. now injection E as <-.
  - destruct ((0 <=? tid)%Z && (tid <? Z.of_nat (c_def c))%Z); [|now injection E as <-].
    destruct (p_init s); cbn [negb] in E; [|discriminate]. destruct (en && lk).
    + destruct (p_lk s (Z.to_nat tid)) as [q|]; [destruct (Nat.eqb q p); discriminate|]. now injection E as <-.
    + destruct (p_lk s (Z.to_nat tid)) as [q|]; [|discriminate]. destruct (Nat.eqb q p); [|discriminate]. injection E as <-. now destruct en.
  - destruct (find_call u (p_call s)); [discriminate|]. now injection E as <-.
  - destruct (find_call u (p_call s)); [discriminate|]. now injection E as <-.
  - destruct (find_call u (p_call s)) as [k|]; [|discriminate]. destruct (spawn_keeps (Z.to_nat (k_num k)) s) as (_ & _ & C). destruct (k_task k) as [[a [prio t]]|].
    + unfold push_prio in E. destruct (memb a _); [discriminate|]. injection E as <-. exact C.
    + injection E as <-. exact C.
  - unfold prim_step in E. destruct (p_pt s j) as [| |k|q|]; try discriminate.
    + now injection E as <-.
    + destruct k as [|k].
      * destruct (if ok then p_lk s j else Some 0), (own_take c (p_wsq s j)) as [[|y a] b]; now injection E as <-.
      * destruct (nth_error (targets c j) k) as [i|].
        -- destruct (if ok then p_lk s i else Some 0), (steal_take c (p_wsq s i)) as [[|y a] b]; now injection E as <-.
        -- destruct ok, (pool_take c (p_q s)) as [[|y a] b]; now injection E as <-.
    + destruct q; now injection E as <-.
  - unfold sec_step in E. destruct (p_st s j) as [| | | |q|]; try discriminate.
    + now injection E as <-.
    + destruct ok, (pool_take c (p_q s)) as [[|y a] b]; now injection E as <-.
    + destruct ok, (prio_take (p_prio s)) as [[|y a] b]; now injection E as <-.
    + destruct ok, (p_q s) as [|y b]; now injection E as <-.
    + destruct q; now injection E as <-.
  - destruct (p_init s && Nat.ltb j (c_def c)); [|discriminate]. now injection E as <-.
  - destruct (memb j (p_sec s)); [|discriminate]. now injection E as <-.
  - destruct (p_st s j); try discriminate. destruct (memb j (p_sec s)); [|discriminate]. now injection E as <-.
  - destruct (p_init s && _ && _); [|discriminate]. destruct (existsb _ _); [discriminate|]. now injection E as <-.
Qed.
Lemma dstep_pool c d l d' : dstep c d l = Some d' -> (forall i, l <> LPick i) -> d_pool d' = d_pool d ++ match gives d l with Some e => [e] | None => [] end.
Proof.
  assert (OP : forall sh o r sh' new enq nt, op_sem c sh o r = (sh', new, enq, nt) -> enq = match o with OEnq e => [e] | _ => [] end).
  { intros sh o r sh' new enq nt E. destruct o as [x aff|x|x|x|x r0| |x|x l0 res|x|]; cbn [op_sem] in E.
    - destruct (isErr (sh_stat sh)); [now injection E|]. destruct (aff && is_default c x); now injection E.
    - now injection E.
    - now injection E.
    - destruct (isErr r); now injection E.
    - now injection E.
    - now injection E.
    - destruct (isErr (sh_stat sh)); [now injection E|]. destruct (calc_shape (c_g c) (c_bind c) x); now injection E.
    - destruct l0 as [|y l0]; [destruct res; now injection E|]. destruct ((sh_left sh y - 1 =? 0)%Z); [destruct res|]; now injection E.
    - now injection E.
    - now injection E. }
  intros E NP. destruct l as [|r|i r|i|]; cbn [dstep gives] in *.
  - destruct (d_main d); try discriminate. injection E as <-. cbn. now rewrite app_nil_r.
  - destruct (d_main d) as [| | |[|o p]|[|n]| | | | | |]; try discriminate; try (injection E as <-; cbn; now rewrite app_nil_r).
    destruct (op_sem c (d_sh d) o r) as [[[sh' new] enq] nt] eqn:Eo. injection E as <-. cbn. rewrite (OP _ _ _ _ _ _ _ Eo). now destruct o.
  - destruct (nth_error (d_act d) i) as [[|o rest]|]; try discriminate. destruct (op_enabled (d_main d) o); [|discriminate].
    destruct (op_sem c (d_sh d) o r) as [[[sh' new] enq] nt] eqn:Eo. injection E as <-. cbn. rewrite (OP _ _ _ _ _ _ _ Eo). now destruct o.
  - exfalso. now apply (NP i).
  - destruct (d_main d); try discriminate. injection E as <-. cbn. now rewrite app_nil_r.
Qed.
Lemma dstep_pick_pool c d i d' e : dstep c d (LPick i) = Some d' -> nth_error (d_pool d) i = Some e -> forall t, cnt t (d_pool d) = cnt t [e] + cnt t (d_pool d').
Proof.
  intros E En t. cbn [dstep] in E. destruct (Nat.ltb _ _); [|discriminate]. rewrite En in E. injection E as <-. cbn [d_pool].
  pose proof (nth_error_remove i (d_pool d) e En) as P. apply (Permutation_count_occ Nat.eq_dec) with (x := t) in P. rewrite P, cnt_cons. reflexivity.
Qed.

(** Everything together; [hd] and [hp]: the actions of the engine and of the pool *)
Record einv (c : dcfg) (k : cfg) (hd : list dlabel) (hp : list plabel) (s : eng) : Prop :=
  { ei_d : drun c (d_init c) hd = Some (e_d s);
    ei_p : pool_run k pool_new hp = Some (e_p s);
    ei_g : forall g t, In g hp -> In t (given1 g) -> In t (els (c_g c)) -> exists b a, g = LSubmit t (c_bind c t) b a;
    ei_t : threads_ok c (fun w e => obeys k (c_bind c e) w) s;
    ei_c : forall t, In t (els (c_g c)) -> census k (e_p s) t = cnt t (p_log (e_p s)) + cnt t (d_pool (e_d s)) }.
Lemma drun_app c : forall l1 l2 d, drun c d (l1 ++ l2) = match drun c d l1 with Some d1 => drun c d1 l2 | None => None end.
Proof. induction l1 as [|l l1 IH]; intros l2 d; cbn [app drun]; [reflexivity|]. destruct (dstep c d l); trivial. Qed.
Lemma prun_app c : forall h1 h2 s, pool_run c s (h1 ++ h2) = match pool_run c s h1 with Some s1 => pool_run c s1 h2 | None => None end.
Proof. induction h1 as [|l h1 IH]; intros h2 s; cbn [app pool_run]; [reflexivity|]. destruct (pool_step c s l); trivial. Qed.
Lemma census_ge k p t : cnt t (p_log p) + cnt t (p_drop p) <= census k p t.
Proof. unfold census. lia. Qed.
(** A task of an element that the pool executes is waiting in the engine *)
Lemma taken c k hd hp s l p w t : einv c k hd hp s -> pool_step k (e_p s) l = Next p -> executes (e_p s) l = Some (w, t) -> In t (els (c_g c)) -> In t (d_pool (e_d s)).
Proof.
  intros I E X H. apply cnt_in. pose proof (ei_c _ _ _ _ _ I t H) as C. destruct (pool_run_inv k hp pool_new _ (pinv_new k) (ei_p _ _ _ _ _ I)) as [PI _].
  destruct (pool_step_inv k _ l p PI E) as [_ CE]. specialize (CE t). assert (G : given1 l = []) by (destruct l; cbn [executes] in X; try discriminate; reflexivity). rewrite G in CE. cbn in CE.
  pose proof (census_ge k p t) as CG. pose proof (executes_log k _ l p E) as L. rewrite X in L. rewrite L, cnt_cons in CG. assert (O : cnt t [t] = 1) by (cbn; now destruct (Nat.eq_dec t t)).
  destruct (drop_app k _ l p E) as (y & D). rewrite D, cnt_app in CG. lia.
Qed.
Lemma exec_allowed c k hd hp s l p w t : einv c k hd hp s -> pool_step k (e_p s) l = Next p -> executes (e_p s) l = Some (w, t) -> In t (els (c_g c)) -> obeys k (c_bind c t) w.
Proof.
  intros I E X H.
  assert (P : places k (fun w t => exists g, In g hp /\ In t (given1 g) /\ may k w g) (e_p s)).
  { apply (places_run k _ hp pool_new); [apply pinv_new|apply places_new| |exact (ei_p _ _ _ _ _ I)]. intros g x v Hg Hx Hm. now exists g. }
  assert (Y : exists g, In g hp /\ In t (given1 g) /\ may k w g).
  { destruct l; cbn [executes] in X; try discriminate.
    - destruct (p_pt (e_p s) i) as [| |q|[|x r]|] eqn:Ep; try discriminate. injection X as <- <-. apply (pl_pt _ _ _ P). rewrite Ep. now left.
    - destruct (p_st (e_p s) j) as [| | | |[|x r]|] eqn:Ep; try discriminate. injection X as <- <-. apply (pl_st _ _ _ P). rewrite Ep. now left. }
  destruct Y as (g & G1 & G2 & G3). destruct (ei_g _ _ _ _ _ I g t G1 G2 H) as (b & a & ->). exact G3.
Qed.
Definition dyn1 (c : dcfg) (s : eng) (l : elabel) : list dlabel :=
  match l with
  | EDyn l _ _ => [l]
  | EPool l => match executes (e_p s) l with Some (_, t) => if memb t (els (c_g c)) then [LPick (index_of t (d_pool (e_d s)))] else [] | None => [] end
  end.
Definition pool1 (c : dcfg) (s : eng) (l : elabel) : list plabel :=
  match l with
  | EDyn l busy a => match gives (e_d s) l with Some e => [LSubmit e (c_bind c e) busy a] | None => [] end
  | EPool l => [l]
  end.
Lemma estep_inv c k hd hp s l s' : einv c k hd hp s -> estep c k s l = Some s' -> einv c k (hd ++ dyn1 c s l) (hp ++ pool1 c s l) s'.
Proof.
  intros I E. destruct (pool_run_inv k hp pool_new _ (pinv_new k) (ei_p _ _ _ _ _ I)) as [PI _]. destruct l as [l busy a|l]; cbn [estep dyn1 pool1] in *.
  - assert (NP : forall i, l <> LPick i) by (intros i ->; discriminate).
    assert (E' : match dstep c (e_d s) l with None => None | Some d =>
                   let who := match l with LWork i _ => if Nat.ltb (length (d_act d)) (length (d_act (e_d s))) then remove_nth i (e_who s) else e_who s | _ => e_who s end in
                   match gives (e_d s) l with None => Some (mkE d (e_p s) who) | Some e => match pool_step k (e_p s) (LSubmit e (c_bind c e) busy a) with Next p => Some (mkE d p who) | _ => None end end end = Some s')
      by (destruct l; trivial; now destruct (NP i)). clear E. cbv zeta in E'.
    destruct (dstep c (e_d s) l) as [d|] eqn:Ed; [|discriminate]. pose proof (to_dyn c _ s l d (ei_t _ _ _ _ _ I) NP Ed) as T. pose proof (dstep_pool c _ l d Ed NP) as DP.
    assert (HD : drun c (d_init c) (hd ++ [l]) = Some d) by (rewrite drun_app, (ei_d _ _ _ _ _ I); cbn [drun]; now rewrite Ed).
    destruct (gives (e_d s) l) as [e|] eqn:Eg.
    + destruct (pool_step k (e_p s) (LSubmit e (c_bind c e) busy a)) as [| |p] eqn:Ep; try discriminate. injection E' as <-. constructor; cbn [e_d e_p].
      * exact HD.
      * rewrite prun_app, (ei_p _ _ _ _ _ I). cbn [pool_run]. now rewrite Ep.
      * intros g t Hg Ht He. apply in_app_or in Hg as [Hg|[Hg|[]]]; [now apply (ei_g _ _ _ _ _ I)|]. subst g. destruct Ht as [<-|[]]. now exists busy, a.
      * destruct T as [T1 T2 T3]. constructor; trivial.
      * intros t Ht. destruct (pool_step_inv k _ _ p PI Ep) as [_ CE]. rewrite (CE t), (executes_log k _ _ p Ep), DP, cnt_app. cbn [executes given1].
        pose proof (ei_c _ _ _ _ _ I t Ht). lia.
    + injection E' as <-. rewrite app_nil_r. constructor; cbn [e_d e_p].
      * exact HD.
      * exact (ei_p _ _ _ _ _ I).
      * exact (ei_g _ _ _ _ _ I).
      * exact T.
      * rewrite DP, app_nil_r. exact (ei_c _ _ _ _ _ I).
  - destruct (existsb (fun t => memb t (els (c_g c))) (given1 l)) eqn:EX; cbn [orb] in E; [discriminate|]. destruct (inside (e_who s) l); [discriminate|].
    destruct (pool_step k (e_p s) l) as [| |p] eqn:Ep; try discriminate.
    assert (HP : pool_run k pool_new (hp ++ [l]) = Some p) by (rewrite prun_app, (ei_p _ _ _ _ _ I); cbn [pool_run]; now rewrite Ep).
    assert (HG : forall t, In t (given1 l) -> In t (els (c_g c)) -> False).
    { intros t Ht He. assert (F : existsb (fun t => memb t (els (c_g c))) (given1 l) = true) by (apply existsb_exists; exists t; split; [exact Ht|now apply memb_in]). congruence. }
    assert (HG2 : forall g t, In g (hp ++ [l]) -> In t (given1 g) -> In t (els (c_g c)) -> exists b a, g = LSubmit t (c_bind c t) b a).
    { intros g t Hg Ht He. apply in_app_or in Hg as [Hg|[<-|[]]]; [now apply (ei_g _ _ _ _ _ I)|]. destruct (HG t Ht He). }
    destruct (pool_step_inv k _ _ p PI Ep) as [_ CE]. pose proof (executes_log k _ _ p Ep) as LG.
    assert (CT : forall t, In t (els (c_g c)) -> census k p t = census k (e_p s) t) by (intros t Ht; rewrite (CE t); assert (Z : cnt t (given1 l) = 0) by (apply cnt_notin; intros F; now apply (HG t)); lia).
    destruct (executes (e_p s) l) as [[w t]|] eqn:Ex.
    + destruct (memb t (els (c_g c))) eqn:Em.
      * destruct (dstep c (e_d s) (LPick (index_of t (d_pool (e_d s))))) as [d|] eqn:Ed; [|discriminate]. injection E as <-. apply memb_in in Em.
        pose proof (taken c k hd hp s l p w t I Ep Ex Em) as TK. pose proof (index_of_nth t _ TK) as IN. constructor; cbn [e_d e_p].
        -- rewrite drun_app, (ei_d _ _ _ _ _ I). cbn [drun]. now rewrite Ed.
        -- exact HP.
        -- exact HG2.
        -- apply (to_pick c _ s (index_of t (d_pool (e_d s))) d p w t (ei_t _ _ _ _ _ I) Ed IN). now apply (exec_allowed c k hd hp s l p w t I Ep).
        -- intros x Hx. rewrite (CT x Hx), LG, cnt_cons. pose proof (ei_c _ _ _ _ _ I x Hx). pose proof (dstep_pick_pool c _ _ d t Ed IN x). lia.
      * injection E as <-. rewrite app_nil_r. constructor; cbn [e_d e_p]; [exact (ei_d _ _ _ _ _ I)|exact HP|exact HG2|destruct (ei_t _ _ _ _ _ I); now constructor|].
        intros x Hx. rewrite (CT x Hx), LG, cnt_cons. pose proof (ei_c _ _ _ _ _ I x Hx). assert (NX : x <> t) by (intros ->; apply memb_in in Hx; congruence).
        assert (Z : cnt x [t] = 0) by (apply cnt_notin; intros [F|[]]; congruence). lia.
    + injection E as <-. rewrite app_nil_r. constructor; cbn [e_d e_p]; [exact (ei_d _ _ _ _ _ I)|exact HP|exact HG2|destruct (ei_t _ _ _ _ _ I); now constructor|].
      intros x Hx. rewrite (CT x Hx), LG. exact (ei_c _ _ _ _ _ I x Hx).
Qed.
Lemma census_new k t : census k pool_new t = 0.
Proof. unfold census. cbn. rewrite !sumf_zero by reflexivity. reflexivity. Qed.
Lemma einv_new c k : einv c k [] [] (eng_new c).
Proof.
  constructor; [reflexivity|reflexivity|intros g t []| |].
  - constructor; cbn; trivial; [intros i p e H; now destruct i|discriminate].
  - intros t _. cbn [eng_new e_p]. now rewrite census_new.
Qed.
Lemma parts_cons c k s l r s1 : estep c k s l = Some s1 -> dyn_part c k s (l :: r) = dyn1 c s l ++ dyn_part c k s1 r /\ pool_part c k s (l :: r) = pool1 c s l ++ pool_part c k s1 r.
Proof. intros E. cbn [dyn_part pool_part]. rewrite E. now destruct l. Qed.
Lemma erun_inv c k : forall ls hd hp s s', einv c k hd hp s -> erun c k s ls = Some s' -> einv c k (hd ++ dyn_part c k s ls) (hp ++ pool_part c k s ls) s'.
Proof.
  induction ls as [|l r IH]; intros hd hp s s' I E; cbn [erun] in E; [injection E as <-; cbn; now rewrite !app_nil_r|].
  destruct (estep c k s l) as [s1|] eqn:E1; [|discriminate]. destruct (parts_cons c k s l r s1 E1) as [-> ->]. rewrite !app_assoc. apply IH; trivial. now apply estep_inv.
Qed.
