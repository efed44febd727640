From Verif Require Import GraphSpec ShareSpec DynInv DynProofs DynTerm PoolProofs PoolLive BindProofs BindProps EngPoolProofs EngPoolProps EngLiveProofs EngFairProofs EngLiveProps.
From Coq Require Import Lia.
Local Open Scope nat_scope.
Local Open Scope list_scope.

(** * The owner of a task *)
Lemma owner_some cs n t q : owner cs n t = Some q -> q < n /\ In t (els (c_g (cs q))).
Proof. unfold owner. intros H. apply find_some in H as [H1 H2]. apply in_seq in H1. apply memb_in in H2. split; [lia|exact H2]. Qed.
Lemma owner_none cs n t : owner cs n t = None -> forall q, q < n -> memb t (els (c_g (cs q))) = false.
Proof. unfold owner. intros H q Hq. refine (find_none _ _ H q _). apply in_seq. lia. Qed.
Lemma owner_of cs n t q : separate n cs -> q < n -> In t (els (c_g (cs q))) -> owner cs n t = Some q.
Proof.
  intros [_ S] Hq Ht. destruct (owner cs n t) as [r|] eqn:E.
  - apply owner_some in E as [E1 E2]. f_equal. exact (S r q t E1 Hq E2 Ht).
  - apply (owner_none cs n t E q) in Hq. apply memb_in in Ht. congruence.
Qed.
Lemma not_owned cs n t p : p < n -> owned cs n t = false -> memb t (els (c_g (cs p))) = false.
Proof. unfold owned. intros Hp H. destruct (owner cs n t) eqn:E; [discriminate|]. exact (owner_none cs n t E p Hp). Qed.

(** * What an engine handles are its own elements *)
Definition op_els (g : graph) (o : op) : Prop :=
  match o with
  | OProc e _ | OEnq e | OExec e | OBody e | OAfter e => In e (els g)
  | ODecs e l res => incl l (els g) /\ forall x, res = Some x -> In x (els g)
  | _ => True
  end.
Definition closed (c : dcfg) (d : dst) : Prop := forall o, In o (all_ops d) -> op_els (c_g c) o.
Lemma op_closed c sh o r sh' new enq nt : wf (c_g c) -> op_els (c_g c) o -> op_sem c sh o r = (sh', new, enq, nt) ->
  (forall x, In x new -> op_els (c_g c) x) /\ forall e, In e enq -> In e (els (c_g c)).
Proof.
  intros W H E. destruct o as [e aff|e|e|e|e r0| |e|e l res|e|]; cbn [op_sem op_els] in *.
  - destruct (isErr _); [injection E as <- <- <- <-; now split|]. destruct (_ && _); injection E as <- <- <- <-; (split; [intros x [<-|[]]; exact H|easy]).
  - injection E as <- <- <- <-. split; [easy|]. intros x [<-|[]]. exact H.
  - injection E as <- <- <- <-. split; [intros x [<-|[]]; exact H|easy].
  - destruct (isErr r); injection E as <- <- <- <-; (split; [|easy]); [intros x [<-|[<-|[]]]; exact I|intros x [<-|[]]; exact H].
  - injection E as <- <- <- <-. now split.
  - injection E as <- <- <- <-. now split.
  - destruct (wf_succ _ W e H) as [_ S]. destruct (isErr _); [injection E as <- <- <- <-; now split|]. destruct (calc_shape _ _ e); injection E as <- <- <- <-; (split; [|easy]).
    + intros x [<-|[]]. cbn [op_els]. split; [exact S|discriminate].
    + intros x Hx. destruct (succ (c_g c) e) as [|y l] eqn:Es; [destruct Hx|]. destruct Hx as [<-|[]]. apply S. now left.
    + intros x Hx. apply in_map_iff in Hx as (y & <- & Hy). now apply S.
    + intros x [<-|[]]. exact I.
  - destruct H as [H1 H2]. destruct l as [|y l].
    + destruct res as [x|]; injection E as <- <- <- <-; (split; [|easy]); [|easy]. intros z [<-|[]]. now apply H2.
    + assert (Hy : In y (els (c_g c))) by (apply H1; now left). assert (Hl : incl l (els (c_g c))) by (intros z Hz; apply H1; now right).
      destruct (_ =? 0)%Z; [destruct res as [x|]|]; injection E as <- <- <- <-; (split; [|easy]).
      * intros z [<-|[<-|[]]]; [exact Hy|]. cbn [op_els]. split; [exact Hl|]. intros u Hu. now apply H2.
      * intros z [<-|[]]. cbn [op_els]. split; [exact Hl|]. intros u Hu. now injection Hu as <-.
      * intros z [<-|[]]. cbn [op_els]. now split.
  - injection E as <- <- <- <-. split; [|easy]. intros x Hx. match type of Hx with In _ (if ?b then _ else _) => destruct b end; [|easy]. destruct Hx as [<-|[]]. exact I.
  - injection E as <- <- <- <-. now split.
Qed.
Lemma closed_step c d l d' : wf (c_g c) -> closed c d -> dstep c d l = Some d' -> closed c d'.
Proof.
  intros W C E. unfold closed, all_ops in *. destruct l as [|r|i r|i|]; cbn [dstep] in E.
  - destruct (d_main d) eqn:Em; try discriminate. injection E as <-. cbn [d_main d_act d_pool main_ops]. exact C.
  - assert (K : forall m, main_ops m = [] -> forall sh out o, In o (all_ops (mkD sh (d_pool d) (d_act d) m out)) -> op_els (c_g c) o).
    { intros m Hm sh out o Ho. unfold all_ops in Ho. cbn [d_main d_act d_pool] in Ho. rewrite Hm in Ho. cbn [app] in Ho. apply C. apply in_or_app. now right. }
    destruct (d_main d) as [| | |[|o p]|[|n]| | | | | |] eqn:Em; try discriminate; try (injection E as <-; apply K; (reflexivity || (destruct (Nat.leb _ _); reflexivity) || (destruct (isErr _); reflexivity))).
    + injection E as <-. cbn [d_main d_act d_pool main_ops]. intros o Ho. apply in_app_or in Ho as [Ho|Ho]; [|apply C; apply in_or_app; now right].
      unfold front_ops in Ho. apply in_map_iff in Ho as (e & <- & He). cbn [op_els]. now apply (fronts_in c) in He.
    + destruct (op_sem c (d_sh d) o r) as [[[sh' new] enq] nt] eqn:Eo. injection E as <-. cbn [d_main d_act d_pool main_ops]. destruct (op_closed c _ _ _ _ _ _ _ W (C o (or_introl eq_refl)) Eo) as [N1 N2].
      cbn [main_ops] in C. intros x Hx. rewrite map_app in Hx. rewrite !in_app_iff in Hx. destruct Hx as [[Hx|Hx]|[Hx|[Hx|Hx]]].
      * now apply N1.
      * apply C. apply in_or_app. left. now right.
      * apply C. rewrite !in_app_iff. now right; left.
      * apply C. rewrite !in_app_iff. now right; right.
      * apply in_map_iff in Hx as (e & <- & He). now apply N2.
  - destruct (nth_error (d_act d) i) as [[|o rest]|] eqn:En; try discriminate. destruct (op_enabled (d_main d) o); [|discriminate].
    destruct (op_sem c (d_sh d) o r) as [[[sh' new] enq] nt] eqn:Eo. injection E as <-. cbn [d_main d_act d_pool]. rewrite main_ops_wake.
    assert (IN : forall x, In x (o :: rest) -> op_els (c_g c) x) by (intros x Hx; apply C; rewrite !in_app_iff; right; left; apply in_concat; exists (o :: rest); split; [now apply nth_error_In in En|exact Hx]).
    destruct (op_closed c _ _ _ _ _ _ _ W (IN o (or_introl eq_refl)) Eo) as [N1 N2].
    intros x Hx. rewrite map_app in Hx. rewrite !in_app_iff in Hx. destruct Hx as [Hx|[Hx|[Hx|Hx]]].
    + apply C. rewrite !in_app_iff. now left.
    + apply in_concat in Hx as (q & Hq & Hx). assert (D : q = new ++ rest \/ In q (d_act d)).
      { destruct (new ++ rest) as [|y l]; [right; now apply in_remove_nth in Hq|]. now apply in_replace_nth in Hq. }
      destruct D as [->|D]; [apply in_app_or in Hx as [Hx|Hx]; [now apply N1|apply IN; now right]|]. apply C. rewrite !in_app_iff. right. left. apply in_concat. now exists q.
    + apply C. rewrite !in_app_iff. now right; right.
    + apply in_map_iff in Hx as (e & <- & He). now apply N2.
  - destruct (Nat.ltb _ _); [|discriminate]. destruct (nth_error (d_pool d) i) as [e|] eqn:En; [|discriminate]. injection E as <-. cbn [d_main d_act d_pool].
    intros x Hx. rewrite concat_app in Hx. cbn [concat app] in Hx. rewrite !in_app_iff in Hx. destruct Hx as [Hx|[[Hx|Hx]|Hx]].
    + apply C. rewrite !in_app_iff. now left.
    + apply C. rewrite !in_app_iff. now right; left.
    + destruct Hx as [<-|[]]. apply C. rewrite !in_app_iff. right. right. apply in_map. now apply nth_error_In in En.
    + apply C. rewrite !in_app_iff. right. right. apply in_map_iff in Hx as (y & <- & Hy). apply in_map. now apply in_remove_nth in Hy.
  - destruct (d_main d) eqn:Em; try discriminate. injection E as <-. cbn [d_main d_act d_pool main_ops]. exact C.
Qed.
Lemma closed_init c : closed c (d_init c).
Proof. easy. Qed.
Lemma gives_own c d l e : closed c d -> gives d l = Some e -> In e (els (c_g c)).
Proof.
  intros C H. destruct l as [|r|i r|i|]; cbn [gives] in H; try discriminate.
  - destruct (d_main d) as [| | |[|[] p]| | | | | | |] eqn:Em; try discriminate. injection H as <-. apply (C (OEnq e0)). unfold all_ops. rewrite Em. now left.
  - destruct (nth_error (d_act d) i) as [[|[] p]|] eqn:En; try discriminate. injection H as <-. apply (C (OEnq e0)). unfold all_ops. rewrite !in_app_iff. right. left. apply in_concat.
    exists (OEnq e0 :: p). split; [now apply nth_error_In in En|now left].
Qed.

(** * A history of all is, for each pipeline, a history of that pipeline and the pool *)
Definition project1 (cs : nat -> dcfg) (p : nat) (s : many) (l : ylabel) : list elabel :=
  match l with
  | YDyn q l busy a => if Nat.eqb q p then [EDyn l busy a] else match gives (y_d s q) l with Some e => [EPool (LSubmit e (c_bind (cs q) e) busy a)] | None => [] end
  | YPool l => [EPool l]
  end.
Fixpoint project (n : nat) (cs : nat -> dcfg) (k : cfg) (p : nat) (s : many) (ls : list ylabel) : list elabel :=
  match ls with [] => [] | l :: r => match ystep n cs k s l with Some s1 => project1 cs p s l ++ project n cs k p s1 r | None => [] end end.
Definition all_closed (n : nat) (cs : nat -> dcfg) (s : many) : Prop := forall q, q < n -> closed (cs q) (y_d s q).
Lemma edyn_parts c k e l busy a e' : estep c k e (EDyn l busy a) = Some e' ->
  dstep c (e_d e) l = Some (e_d e') /\ (forall i, l <> LPick i)
  /\ match gives (e_d e) l with Some t => pool_step k (e_p e) (LSubmit t (c_bind c t) busy a) = Next (e_p e') | None => e_p e' = e_p e end.
Proof.
  intros E. cbn [estep] in E. destruct l; try discriminate; (destruct (dstep c (e_d e) _) as [d|]; [|discriminate]); (destruct (gives (e_d e) _) as [t|]; [destruct (pool_step k (e_p e) _) eqn:P; try discriminate|]);
    injection E as <-; cbn [e_d e_p]; (split; [reflexivity|]); (split; [discriminate|]); (reflexivity || exact P).
Qed.
Lemma view_put s q e : view (put_view s q e) q = e.
Proof. unfold view, put_view. cbn [y_p y_d y_w]. rewrite !upd_same. now destruct e. Qed.
Lemma proj_step n cs k p s l s' : separate n cs -> p < n -> all_closed n cs s -> ystep n cs k s l = Some s' ->
  erun (cs p) k (view s p) (project1 cs p s l) = Some (view s' p) /\ dyn_part (cs p) k (view s p) (project1 cs p s l) = own1 n cs p s l
  /\ pool_part (cs p) k (view s p) (project1 cs p s l) = pool1y cs s l.
Proof.
  intros SE Hp C E. destruct l as [q l busy a|l]; cbn [ystep project1 own1 pool1y] in *.
  - destruct (Nat.ltb q n) eqn:Hq; [|discriminate]. apply Nat.ltb_lt in Hq. destruct (estep (cs q) k (view s q) (EDyn l busy a)) as [e|] eqn:Ee; [|discriminate]. injection E as <-.
    destruct (Nat.eqb_spec q p) as [->|N].
    + cbn [erun dyn_part pool_part]. rewrite Ee, view_put. cbn [app]. rewrite !app_nil_r. repeat split.
    + destruct (edyn_parts _ _ _ _ _ _ _ Ee) as (D & _ & G). cbn [view e_d e_p] in D, G. assert (V : view (put_view s q e) p = mkE (y_d s p) (e_p e) (y_w s p)).
      { unfold view, put_view. cbn [y_p y_d y_w]. now rewrite !upd_other by auto. }
      rewrite V. destruct (gives (y_d s q) l) as [t|] eqn:Eg; [|rewrite G; now repeat split].
      assert (M : memb t (els (c_g (cs p))) = false).
      { destruct (memb t (els (c_g (cs p)))) eqn:M; trivial. exfalso. apply N. apply memb_in in M. destruct SE as [_ SE]. refine (SE q p t Hq Hp _ M). exact (gives_own _ _ _ _ (C q Hq) Eg). }
      assert (ES : estep (cs p) k (view s p) (EPool (LSubmit t (c_bind (cs q) t) busy a)) = Some (mkE (y_d s p) (e_p e) (y_w s p))).
      { cbn [estep given1 existsb]. rewrite M. cbn [orb inside view e_p e_who executes]. now rewrite G. }
      cbn [erun dyn_part pool_part]. rewrite ES. cbn [executes view e_p app]. repeat split.
  - destruct (existsb (owned cs n) (given1 l) || existsb (fun q => inside (y_w s q) l) (seq 0 n)) eqn:B; [discriminate|]. apply Bool.orb_false_iff in B as [B1 B2].
    destruct (pool_step k (y_p s) l) as [| |p'] eqn:P; try discriminate.
    assert (A1 : existsb (fun t => memb t (els (c_g (cs p)))) (given1 l) = false).
    { destruct (existsb _ (given1 l)) eqn:X in |- *; trivial. apply existsb_exists in X as (t & Ht & M). apply memb_in in M. pose proof (owner_of cs n t p SE Hp M) as O.
      assert (F : existsb (owned cs n) (given1 l) = true) by (apply existsb_exists; exists t; split; [exact Ht|]; unfold owned; now rewrite O). congruence. }
    assert (A2 : inside (y_w s p) l = false).
    { destruct (inside (y_w s p) l) eqn:X; trivial. assert (F : existsb (fun q => inside (y_w s q) l) (seq 0 n) = true) by (apply existsb_exists; exists p; split; [apply in_seq; lia|exact X]). congruence. }
    assert (ES : estep (cs p) k (view s p) (EPool l) = Some (view s' p)).
    { cbn [estep]. rewrite A1. cbn [orb view e_p e_d e_who]. rewrite A2, P. destruct (executes (y_p s) l) as [[w t]|]; [|now injection E as <-].
      destruct (memb t (els (c_g (cs p)))) eqn:M.
      - apply memb_in in M. rewrite (owner_of cs n t p SE Hp M) in E. destruct (dstep (cs p) (y_d s p) _) as [d|]; [|discriminate]. injection E as <-. unfold view. cbn [y_p y_d y_w]. now rewrite !upd_same.
      - destruct (owner cs n t) as [q|] eqn:O; [|now injection E as <-]. assert (N : q <> p) by (intros ->; apply owner_some in O as [_ O]; apply memb_in in O; congruence).
        destruct (dstep (cs q) (y_d s q) _) as [d|]; [|discriminate]. injection E as <-. unfold view. cbn [y_p y_d y_w]. now rewrite !upd_other by auto. }
    cbn [erun dyn_part pool_part]. rewrite ES. cbn [view e_p e_d app]. rewrite !app_nil_r. repeat split.
Qed.
Lemma upd_cases {A} (f : nat -> A) q v (P : nat -> A -> Prop) : P q v -> (forall r, r <> q -> P r (f r)) -> forall r, P r (upd f q v r).
Proof. intros H1 H2 r. destruct (Nat.eq_dec r q) as [->|N]; [now rewrite upd_same|rewrite upd_other by exact N; now apply H2]. Qed.
Lemma closed_ystep n cs k s l s' : separate n cs -> all_closed n cs s -> ystep n cs k s l = Some s' -> all_closed n cs s'.
Proof.
  intros [SE _] C E r Hr. destruct l as [q l busy a|l]; cbn [ystep] in E.
  - destruct (Nat.ltb q n) eqn:Hq; [|discriminate]. destruct (estep (cs q) k (view s q) (EDyn l busy a)) as [e|] eqn:Ee; [|discriminate]. injection E as <-. destruct (edyn_parts _ _ _ _ _ _ _ Ee) as (D & _). cbn [view e_d] in D.
    cbn [put_view y_d]. destruct (Nat.eq_dec r q) as [->|N]; [rewrite upd_same|rewrite upd_other by exact N; now apply C]. apply (closed_step _ _ _ _ (proj1 (SE q Hr)) (C q Hr) D).
  - destruct (_ || _); [discriminate|]. destruct (pool_step k (y_p s) l) as [| |p']; try discriminate. destruct (executes (y_p s) l) as [[w t]|]; [|injection E as <-; now apply C].
    destruct (owner cs n t) as [q|]; [|injection E as <-; now apply C]. destruct (dstep (cs q) (y_d s q) _) as [d|] eqn:D; [|discriminate]. injection E as <-.
    cbn [y_d]. destruct (Nat.eq_dec r q) as [->|N]; [rewrite upd_same|rewrite upd_other by exact N; now apply C]. apply (closed_step _ _ _ _ (proj1 (SE q Hr)) (C q Hr) D).
Qed.
Lemma epart_app c k : forall l1 s s1 l2, erun c k s l1 = Some s1 ->
  dyn_part c k s (l1 ++ l2) = dyn_part c k s l1 ++ dyn_part c k s1 l2 /\ pool_part c k s (l1 ++ l2) = pool_part c k s l1 ++ pool_part c k s1 l2.
Proof.
  induction l1 as [|l l1 IH]; intros s s1 l2 E; cbn [erun dyn_part pool_part app] in *; [injection E as <-; now split|]. destruct (estep c k s l) as [s3|]; [|discriminate].
  destruct (IH s3 s1 l2 E) as [A B]. now rewrite A, B, !app_assoc.
Qed.
Lemma proj_run n cs k p : separate n cs -> p < n -> forall ls s s', all_closed n cs s -> yrun n cs k s ls = Some s' ->
  erun (cs p) k (view s p) (project n cs k p s ls) = Some (view s' p) /\ dyn_part (cs p) k (view s p) (project n cs k p s ls) = own_part n cs k p s ls
  /\ pool_part (cs p) k (view s p) (project n cs k p s ls) = shared_part n cs k s ls /\ all_closed n cs s'.
Proof.
  intros SE Hp. induction ls as [|l ls IH]; intros s s' C E; cbn [yrun project own_part shared_part] in *; [injection E as <-; now repeat split|].
  destruct (ystep n cs k s l) as [s1|] eqn:E1; [|discriminate]. destruct (proj_step n cs k p s l s1 SE Hp C E1) as (P1 & P2 & P3).
  destruct (IH s1 s' (closed_ystep n cs k s l s1 SE C E1) E) as (Q1 & Q2 & Q3 & Q4). destruct (epart_app _ _ _ _ _ (project n cs k p s1 ls) P1) as [R2 R3].
  rewrite (erun_cat _ _ _ _ _ _ P1), R2, R3, P2, P3, Q2, Q3. now repeat split.
Qed.
Lemma closed_new n cs : all_closed n cs (many_new cs).
Proof. intros q _. apply closed_init. Qed.
Lemma view_new cs p : view (many_new cs) p = eng_new (cs p).
Proof. reflexivity. Qed.
Lemma yrun_app n cs k l1 : forall s s1 l2, yrun n cs k s l1 = Some s1 -> yrun n cs k s (l1 ++ l2) = yrun n cs k s1 l2.
Proof. induction l1 as [|l l1 IH]; intros s s1 l2 E; cbn [yrun app] in *; [now injection E as <-|]. destruct (ystep n cs k s l); [|discriminate]. now apply IH. Qed.

(** * A thread is inside the elements of at most one pipeline *)
Definition apart (n : nat) (s : many) : Prop := forall p q w, p < n -> q < n -> In w (y_w s p) -> In w (y_w s q) -> p = q.
Lemma who_shrinks c k e l busy a e' w : estep c k e (EDyn l busy a) = Some e' -> In w (e_who e') -> In w (e_who e).
Proof.
  intros E H. cbn [estep] in E. destruct l; try discriminate; (destruct (dstep c (e_d e) _) as [d|]; [|discriminate]); (destruct (gives (e_d e) _) as [t|]; [destruct (pool_step k (e_p e) _) eqn:P; try discriminate|]);
    injection E as <-; cbn [e_who] in H; trivial; (destruct (Nat.ltb _ _); [now apply in_remove_nth in H|exact H]).
Qed.
Lemma executes_in s l w t : executes s l = Some (w, t) -> match l with LPrim i _ => w = Prim i | LSec j _ => w = Sec j | _ => False end.
Proof.
  destruct l; try discriminate; cbn [executes].
  - destruct (p_pt s i) as [| | |[|x r]|]; try discriminate. intros H. now injection H as <- _.
  - destruct (p_st s j) as [| | | |[|x r]|]; try discriminate. intros H. now injection H as <- _.
Qed.
Lemma apart_step n cs k s l s' : apart n s -> ystep n cs k s l = Some s' -> apart n s'.
Proof.
  intros A E. destruct l as [q l busy a|l]; cbn [ystep] in E.
  - destruct (Nat.ltb q n) eqn:Hq; [|discriminate]. destruct (estep (cs q) k (view s q) (EDyn l busy a)) as [e|] eqn:Ee; [|discriminate]. injection E as <-.
    assert (SUB : forall r w, In w (y_w (put_view s q e) r) -> In w (y_w s r)).
    { intros r w. cbn [put_view y_w]. destruct (Nat.eq_dec r q) as [->|N]; [rewrite upd_same|now rewrite upd_other by exact N]. exact (who_shrinks _ _ _ _ _ _ _ w Ee). }
    intros r1 r2 w H1 H2 I1 I2. exact (A r1 r2 w H1 H2 (SUB _ _ I1) (SUB _ _ I2)).
  - destruct (existsb (owned cs n) (given1 l) || existsb (fun q => inside (y_w s q) l) (seq 0 n)) eqn:B; [discriminate|]. apply Bool.orb_false_iff in B as [_ B]. destruct (pool_step k (y_p s) l) as [| |p']; try discriminate.
    destruct (executes (y_p s) l) as [[v t]|] eqn:X; [|injection E as <-; exact A]. destruct (owner cs n t) as [q|] eqn:O; [|injection E as <-; exact A].
    destruct (dstep (cs q) (y_d s q) _) as [d|] eqn:D; [|discriminate]. injection E as <-. apply executes_in in X. pose proof (owner_some _ _ _ _ O) as [Hq _].
    assert (NV : forall r, r < n -> ~ In v (y_w s r)).
    { intros r Hr. apply (not_inside (y_w s r) v l); [exact X|]. destruct (inside (y_w s r) l) eqn:Z; trivial.
      assert (F : existsb (fun q => inside (y_w s q) l) (seq 0 n) = true) by (apply existsb_exists; exists r; split; [apply in_seq; lia|exact Z]). congruence. }
    assert (IN : forall r w, In w (y_w (mkMany p' (upd (y_d s) q d) (upd (y_w s) q (y_w s q ++ [v]))) r) -> In w (y_w s r) \/ (r = q /\ w = v)).
    { intros r w. cbn [y_w]. destruct (Nat.eq_dec r q) as [->|N]; [rewrite upd_same|rewrite upd_other by exact N; now left]. intros H. apply in_app_or in H as [H|[<-|[]]]; auto. }
    intros r1 r2 w H1 H2 I1 I2. apply IN in I1. apply IN in I2. destruct I1 as [I1|[J1 K1]], I2 as [I2|[J2 K2]]; subst; trivial.
    + exact (A r1 r2 w H1 H2 I1 I2).
    + now apply NV in I1.
    + now apply NV in I2.
Qed.
Lemma apart_run n cs k : forall ls s s', apart n s -> yrun n cs k s ls = Some s' -> apart n s'.
Proof. induction ls as [|l ls IH]; intros s s' A E; cbn [yrun] in E; [now injection E as <-|]. destruct (ystep n cs k s l) as [s1|] eqn:E1; [|discriminate]. exact (IH s1 s' (apart_step n cs k s l s1 A E1) E). Qed.

(** * Rounds of all and rounds of one *)
(** An action of the engine of another pipeline *)
Definition foreign (p : nat) (l : ylabel) : bool := match l with YDyn q _ _ _ => negb (Nat.eqb q p) | _ => false end.
Definition strange (p : nat) (ls : list ylabel) : nat := length (filter (foreign p) ls).
Lemma proj_may cs p s l : ymay l = true -> forallb may_happen (project1 cs p s l) = true.
Proof.
  intros H. destruct l as [q l busy a|l]; cbn [project1].
  - destruct (Nat.eqb q p); [cbn [forallb]; rewrite Bool.andb_true_r; now destruct l|]. destruct (gives _ l); reflexivity.
  - cbn [forallb]. rewrite Bool.andb_true_r. exact H.
Qed.
Lemma proj_hits cs p s l : hits (project1 cs p s l) <= (if ydisturbs l then 1 else 0) + (if foreign p l then 1 else 0).
Proof.
  destruct l as [q l busy a|l]; cbn [project1 foreign].
  - destruct (Nat.eqb q p); cbn [negb].
    + unfold hits. destruct l; cbn; lia.
    + destruct (gives _ l); unfold hits; cbn; lia.
  - unfold hits. cbn [filter]. change (ydisturbs (YPool l)) with (disturbs (EPool l)). destruct (disturbs (EPool l)); cbn; lia.
Qed.
Lemma hits_app l1 l2 : hits (l1 ++ l2) = hits l1 + hits l2.
Proof. unfold hits. now rewrite filter_app, app_length. Qed.
Lemma proj_run_may n cs k p : forall ls s, forallb ymay ls = true -> forallb may_happen (project n cs k p s ls) = true /\ hits (project n cs k p s ls) <= yhits ls + strange p ls.
Proof.
  induction ls as [|l ls IH]; intros s A; cbn [forallb project] in *; [split; [reflexivity|unfold hits; cbn; lia]|]. apply Bool.andb_true_iff in A as [A1 A2]. destruct (ystep n cs k s l) as [s1|]; [|split; [reflexivity|unfold hits; cbn; lia]].
  destruct (IH s1 A2) as [B1 B2]. split; [rewrite forallb_app, B1, (proj_may cs p s l A1); reflexivity|]. rewrite hits_app. pose proof (proj_hits cs p s l). unfold yhits, strange in *. cbn [filter].
  destruct (ydisturbs l), (foreign p l); cbn [length]; lia.
Qed.
(** In a round in which only the pool and pipeline [p] act everyone acts as they do for [p] alone *)
Definition seen (p : nat) (a : actor) : yactor := match a with Caller => YCaller p | InPool w => YThread w end.
Lemma proj_acts n cs k p s l s' a : separate n cs -> p < n -> all_closed n cs s -> ystep n cs k s l = Some s' -> foreign p l = false ->
  exists e, project1 cs p s l = [e] /\ acts (view s p) e a = yacts s l (seen p a).
Proof.
  intros SE Hp C E F. destruct l as [q l busy b|l]; cbn [project1 foreign] in *.
  - apply Bool.negb_false_iff in F. rewrite F. eexists. split; [reflexivity|]. apply Nat.eqb_eq in F as ->. destruct a as [|w]; cbn [seen]; destruct l; cbn; trivial. now rewrite Nat.eqb_refl.
  - eexists. split; [reflexivity|]. now destruct a as [|[]], l.
Qed.
Lemma proj_acted n cs k p a : separate n cs -> p < n -> forall ls s s', all_closed n cs s -> yrun n cs k s ls = Some s' -> strange p ls = 0 ->
  acted (cs p) k (view s p) (project n cs k p s ls) a = yacted n cs k s ls (seen p a).
Proof.
  intros SE Hp. induction ls as [|l ls IH]; intros s s' C E Z; cbn [yrun project yacted] in *; [reflexivity|]. destruct (ystep n cs k s l) as [s1|] eqn:E1; [|discriminate].
  unfold strange in Z. cbn [filter] in Z. destruct (foreign p l) eqn:F; [discriminate|]. destruct (proj_acts n cs k p s l s1 a SE Hp C E1 F) as (e & P & X). destruct (proj_step n cs k p s l s1 SE Hp C E1) as (P1 & _).
  rewrite P in *. cbn [erun] in P1. cbn [app acted]. destruct (estep (cs p) k (view s p) e) as [s2|] eqn:E2; [|discriminate]. injection P1 as ->. rewrite X, (IH s1 s' (closed_ystep n cs k s l s1 SE C E1) E Z). reflexivity.
Qed.
Lemma rest_seen n k s p a : p < n -> yresting n k s (seen p a) -> resting k (view s p) a.
Proof. intros Hp. destruct a as [|w]; cbn [seen yresting resting view e_d e_who e_p]; [intros [H|H]; [lia|exact H]|]. intros [H1 H2]. split; [now apply H1|exact H2]. Qed.

(** What the others still have to do *)
Definition work_left (n : nat) (cs : nat -> dcfg) (s : many) : nat := sumf (fun q => measure (cs q) (y_d s q)) (seq 0 n).
Definition all_inv (n : nat) (cs : nat -> dcfg) (s : many) : Prop := forall q, q < n -> Inv (cs q) (y_d s q).
Lemma sumf_upd (d : nat -> dst) (h : nat -> dst -> nat) q v : forall n, q < n ->
  sumf (fun r => h r (upd d q v r)) (seq 0 n) + h q (d q) = sumf (fun r => h r (d r)) (seq 0 n) + h q v.
Proof.
  induction n as [|n IH]; intros Hq; [lia|]. rewrite seq_S, !sumf_app. cbn [sumf plus]. destruct (Nat.eq_dec q n) as [->|N].
  - rewrite upd_same. assert (X : sumf (fun r => h r (upd d n v r)) (seq 0 n) = sumf (fun r => h r (d r)) (seq 0 n)).
    { clear. apply sumf_ext. intros x Hx. apply in_seq in Hx. now rewrite upd_other by lia. }
    rewrite X. lia.
  - rewrite upd_other by lia. assert (q < n) by lia. specialize (IH H). lia.
Qed.
Definition no_call (l : ylabel) : bool := match l with YDyn _ LRun _ _ => false | _ => true end.
Lemma may_no_call l : ymay l = true -> no_call l = true.
Proof. destruct l as [q []|]; easy. Qed.
Lemma left_step n cs k s l s' : separate n cs -> all_inv n cs s -> no_call l = true -> ystep n cs k s l = Some s' ->
  all_inv n cs s' /\ work_left n cs s' + (match l with YDyn _ _ _ _ => 1 | _ => 0 end) <= work_left n cs s + (if ydisturbs l then 5 else 0).
Proof.
  intros [SE _] I NC E. assert (ONE : forall q dl d, q < n -> dl <> LRun -> dstep (cs q) (y_d s q) dl = Some d ->
     (forall r, r < n -> Inv (cs r) (upd (y_d s) q d r)) /\ sumf (fun r => measure (cs r) (upd (y_d s) q d r)) (seq 0 n) + 1 <= work_left n cs s + spur dl).
  { intros q dl d Hq NR D. destruct (SE q Hq) as [Hwf Ha]. split.
    - intros r Hr. destruct (Nat.eq_dec r q) as [->|N]; [rewrite upd_same|rewrite upd_other by exact N; now apply I]. apply (Inv_step (cs q) Hwf Ha (y_d s q) dl d (I q Hq)); [intros ->; congruence|exact D].
    - pose proof (step_measure (cs q) Hwf Ha (y_d s q) dl d (I q Hq) NR D) as M. pose proof (sumf_upd (y_d s) (fun r => measure (cs r)) q d n Hq) as U. cbn beta in U. unfold work_left. lia. }
  destruct l as [q l busy a|l]; cbn [ystep] in E.
  - destruct (Nat.ltb q n) eqn:Hq; [|discriminate]. apply Nat.ltb_lt in Hq. destruct (estep (cs q) k (view s q) (EDyn l busy a)) as [e|] eqn:Ee; [|discriminate]. injection E as <-. destruct (edyn_parts _ _ _ _ _ _ _ Ee) as (D & _). cbn [view e_d] in D.
    destruct (ONE q l (e_d e) Hq) as [O1 O2]; [intros ->; discriminate|exact D|]. split; [exact O1|]. unfold work_left in *. cbn [put_view y_d]. assert (X : spur l = if ydisturbs (YDyn q l busy a) then 5 else 0) by now destruct l. lia.
  - destruct (_ || _); [discriminate|]. destruct (pool_step k (y_p s) l) as [| |p']; try discriminate.
    assert (SAME : forall p0, Some (mkMany p0 (y_d s) (y_w s)) = Some s' -> all_inv n cs s' /\ work_left n cs s' + 0 <= work_left n cs s + (if ydisturbs (YPool l) then 5 else 0)).
    { intros p0 F. injection F as <-. split; [exact I|]. unfold work_left. cbn [y_d]. lia. }
    destruct (executes (y_p s) l) as [[w t]|]; [|now apply (SAME p')]. destruct (owner cs n t) as [q|] eqn:O; [|now apply (SAME p')]. apply owner_some in O as [Hq _].
    destruct (dstep (cs q) (y_d s q) _) as [d|] eqn:D; [|discriminate]. injection E as <-. destruct (ONE q (LPick (index_of t (d_pool (y_d s q)))) d Hq) as [O1 O2]; [discriminate|exact D|]. split; [exact O1|]. unfold work_left in *. cbn [y_d spur] in *. lia.
Qed.
Lemma left_run n cs k p : separate n cs -> forall ls s s', all_inv n cs s -> forallb ymay ls = true -> yrun n cs k s ls = Some s' ->
  all_inv n cs s' /\ work_left n cs s' + strange p ls <= work_left n cs s + 5 * yhits ls.
Proof.
  intros SE. induction ls as [|l ls IH]; intros s s' I A E; cbn [yrun forallb] in *; [injection E as <-; split; [exact I|unfold strange, yhits; cbn; lia]|]. apply Bool.andb_true_iff in A as [A1 A2].
  destruct (ystep n cs k s l) as [s1|] eqn:E1; [|discriminate]. destruct (left_step n cs k s l s1 SE I (may_no_call l A1) E1) as [I1 M1]. destruct (IH s1 s' I1 A2 E) as [I2 M2]. split; [exact I2|].
  unfold strange, yhits in *. cbn [filter]. destruct l as [q l b a|l]; cbn [foreign] in *; [destruct (negb _)|]; destruct (ydisturbs _); cbn [length] in *; lia.
Qed.
(** Rounds of all are, but for a beginning and for as many as the others still have to do, rounds of one *)
Lemma rounds_one n cs k p : separate n cs -> p < n -> forall s r m s', yfair_rounds n cs k s r m s' -> all_closed n cs s -> all_inv n cs s ->
  exists pre s1 r1 m1 x, forallb may_happen pre = true /\ erun (cs p) k (view s p) pre = Some s1 /\ fair_rounds (cs p) k s1 r1 m1 (view s' p)
    /\ hits pre + m1 <= m + x /\ r <= r1 + x /\ work_left n cs s' + x <= work_left n cs s + 5 * m.
Proof.
  intros SE Hp s r m s' F. induction F as [s|s ls s1 r m s2 E R F IH]; intros C I.
  - exists [], (view s p), 0, 0, 0. split; [reflexivity|]. split; [reflexivity|]. split; [constructor|]. unfold hits. cbn. lia.
  - destruct R as [A R]. destruct (proj_run n cs k p SE Hp ls s s1 C E) as (P1 & _ & _ & C1). destruct (left_run n cs k p SE ls s s1 I A E) as [I1 L1]. destruct (proj_run_may n cs k p ls s A) as [M1 M2].
    destruct (IH C1 I1) as (pre & s3 & r1 & m1 & x & Q1 & Q2 & Q3 & Q4 & Q5 & Q6). destruct (Nat.eq_0_gt_0_cases (strange p ls)) as [Z|Z].
    + exists [], (view s p), (S r1), (hits (project n cs k p s ls ++ pre) + m1), x. split; [reflexivity|]. split; [reflexivity|]. split.
      * apply fr_next with s3; [now rewrite (erun_cat _ _ _ _ _ _ P1)| |exact Q3]. split; [now rewrite forallb_app, M1, Q1|]. intros a. rewrite (acted_app _ _ a pre _ _ _ P1), (proj_acted n cs k p a SE Hp ls s s1 C E Z).
        destruct (R (seen p a)) as [Y|Y]; [left; exact (rest_seen n k s p a Hp Y)|right; now rewrite Y].
      * rewrite hits_app. unfold hits at 1. cbn [filter length]. lia.
    + exists (project n cs k p s ls ++ pre), s3, r1, m1, (x + strange p ls). split; [now rewrite forallb_app, M1, Q1|]. split; [now rewrite (erun_cat _ _ _ _ _ _ P1)|]. split; [exact Q3|]. rewrite hits_app. lia.
Qed.
(** How a run that has returned without errors has ended *)
Lemma ended_well c k ls s l2 s' : wf (c_g c) -> acyclic (c_g c) -> erun c k (eng_new c) ls = Some s -> disciplined c (d_init c) (dyn_part c k (eng_new c) ls) -> d_main (e_d s) <> MIdle ->
  forallb may_happen l2 = true -> erun c k s l2 = Some s' -> no_error (trace (e_d s')) -> d_main (e_d s') = MIdle -> d_out (e_d s') = Some st_default /\ all_ran (c_g c) (trace (e_d s')).
Proof.
  intros Hwf Ha E D NI A2 E2 N EM. destruct (erun_app c k ls _ _ _ _ E E2) as [E3 P3]. destruct (C108_parts c k _ s' E3) as (X1 & _).
  assert (X : exec c (dyn_part c k (eng_new c) (ls ++ l2)) (e_d s')) by (split; [exact X1|]; rewrite P3; apply disc_app; [now apply part_no_run|exact D]).
  pose proof (exec_inv c _ _ Hwf Ha X) as I'.
  assert (Hout : d_out (e_d s') <> None).
  { rewrite P3 in X1. rewrite drun_app in X1. pose proof (C108_parts c k _ s E) as (Y3 & _). rewrite Y3 in X1. refine (idle_has_out c _ _ _ _ X1 EM). intros F0. now destruct NI. }
  destruct (d_out (e_d s')) as [st|] eqn:Eo; [|congruence].
  assert (Hc : (0 <= code st)%Z).
  { pose proof (v_phase c _ I') as P. rewrite EM, Eo in P. destruct P as [Ri [Es _]]. subst st. destruct (r_stat c _ _ Ri) as [Es|[Es [e He]]]; [rewrite Es; discriminate|]. apply N in He. exact He. }
  destruct (C07_ok_means_all_ran_once c _ _ st Hwf Ha X Eo Hc) as [Es [Hr _]]. subst st. auto.
Qed.
