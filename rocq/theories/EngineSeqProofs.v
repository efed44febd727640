(** Topological engine run; closing lemmas connecting dependency mutation to engine graphs. *)
From Verif Require Import GraphModel GraphSpec DepProofs TopoProofs StaticModel StaticProofs StatusProofs.
From Coq Require Import Lia.
Local Open Scope nat_scope.

Lemma wf_of_state st l : edges_ok st -> NoDup l ->
  (forall e, In e l -> incl (e_dep (st e)) l /\ incl (e_succ (st e)) l) -> wf (graph_of st l).
Proof.
  intros [Hs [Hi Hn]] Hnd Hc. constructor; simpl; auto.
  - intros e He. split; [apply Hn|apply Hc; exact He].
  - intros e He. split; [apply Hn|apply Hc; exact He].
  - intros d e _ _. apply Hs.
Qed.

Definition seq_trace (res : nat -> status) (p : list nat) : list gevent := flat_map (fun e => [GStart e; GFinish e (res e)]) p.

Lemma seq_trace_starts res p : starts (seq_trace res p) = p.
Proof. induction p as [|e p IH]; simpl; [reflexivity|]. rewrite <- IH at 2. reflexivity. Qed.
Lemma seq_trace_finishes res p : map fst (finishes (seq_trace res p)) = p.
Proof. induction p as [|e p IH]; simpl; [reflexivity|]. rewrite <- IH at 2. reflexivity. Qed.

Definition check_result (s : status) : eng_result := if (code s =? STATUS_CRASH)%Z then EThrow (info s) else EReturn s.

(** Shape of a sequential run: a prefix of the order, cut right after the first error. *)
Lemma topo_run_shape res : forall order tr out, topo_run res order st_default = (tr, out) ->
  (Forall (fun e => (0 <= code (res e))%Z) order /\ tr = seq_trace res order /\ out = EReturn st_default) \/
  (exists p f q, order = p ++ f :: q /\ Forall (fun e => (0 <= code (res e))%Z) p /\ (code (res f) < 0)%Z /\
     tr = seq_trace res (p ++ [f]) /\ out = check_result (res f)).
Proof.
  induction order as [|e order IH]; intros tr out H; simpl in H.
  - inversion H; subst. left. repeat split; constructor.
  - destruct (isErr (res e)) eqn:Ee.
    + rewrite st_plus_take in H by (assumption || reflexivity). unfold check_status in H. rewrite Ee in H.
      right. exists [], e, order. apply isErr_code in Ee. unfold check_result, isCrash in *.
      destruct (code (res e) =? STATUS_CRASH)%Z; inversion H; subst; repeat split; auto.
    + rewrite st_plus_noterr in H by assumption. unfold check_status in H. simpl in H.
      destruct (topo_run res order st_default) as [tr' out'] eqn:E. inversion H; subst; clear H.
      apply isErr_false in Ee.
      destruct (IH _ _ eq_refl) as [[Hf [Ht Ho]]|[p [f [q [Eo [Hf [Hn [Ht Ho]]]]]]]].
      * left. subst. repeat split; auto.
      * right. exists (e :: p), f, q. subst. repeat split; auto.
Qed.

Lemma seq_trace_deps g res l : NoDup l -> (forall d e, edge g d e -> before l d e) -> incl l (els g) ->
  forall p q, l = p ++ q -> (forall x y, before p x y -> (0 <= code (res x))%Z) -> starts_after_deps g (seq_trace res p).
Proof.
  intros Hnd Ho Hin p q El Hok t1 e t2 E d Hd.
  (* locate e in p *)
  assert (Hsplit : exists p1 p2, p = p1 ++ e :: p2 /\ t1 = seq_trace res p1).
  { clear - E. revert t1 E. induction p as [|x p IH]; intros t1 E; [destruct t1; discriminate|].
    change (seq_trace res (x :: p)) with (GStart x :: GFinish x (res x) :: seq_trace res p) in E.
    destruct t1 as [|a t1]; simpl in E.
    - injection E as -> _. exists [], p. auto.
    - injection E as <- E. destruct t1 as [|b t1]; simpl in E; [discriminate|]. injection E as <- E.
      destruct (IH _ E) as [p1 [p2 [-> ->]]]. exists (x :: p1), p2. auto. }
  destruct Hsplit as [p1 [p2 [Ep Et]]].
  assert (He : In e (els g)) by (apply Hin; rewrite El, Ep; apply in_or_app; left; apply in_or_app; right; left; reflexivity).
  pose proof (Ho d e (conj He Hd)) as Hb.
  assert (Hdp : In d p1).
  { destruct Hb as [a [b [c Eb]]]. rewrite El, Ep in Eb. rewrite <- app_assoc in Eb. simpl in Eb.
    assert (Eb2 : p1 ++ e :: p2 ++ q = (a ++ d :: b) ++ e :: c) by (rewrite <- app_assoc; exact Eb).
    assert (Hnd2 : NoDup (p1 ++ e :: p2 ++ q)) by (rewrite El, Ep, <- app_assoc in Hnd; exact Hnd).
    destruct (nodup_split _ _ _ Hnd2 _ _ Eb2) as [-> _]. apply in_or_app; right; left; reflexivity. }
  exists (res d). split.
  - rewrite Et. unfold seq_trace. apply in_flat_map. exists d. split; [exact Hdp|]. simpl; auto.
  - apply (Hok d e). apply in_split in Hdp. destruct Hdp as [a [b ->]]. exists a, b, p2. rewrite Ep, <- app_assoc. reflexivity.
Qed.

Lemma before_first_error (res : nat -> status) p f x y : Forall (fun e => (0 <= code (res e))%Z) p -> before (p ++ [f]) x y -> (0 <= code (res x))%Z.
Proof.
  intros Hf [a [b [c E]]].
  assert (Hx : In x p).
  { destruct c as [|z c] using rev_ind.
    - change (x :: b ++ [y]) with ((x :: b) ++ [y]) in E. rewrite app_assoc in E. apply app_inj_tail in E. destruct E as [-> _]. apply in_or_app; right; left; reflexivity.
    - replace (a ++ x :: b ++ y :: c ++ [z]) with ((a ++ x :: b ++ y :: c) ++ [z]) in E
        by (rewrite <- app_assoc; simpl; rewrite <- app_assoc; reflexivity).
      apply app_inj_tail in E. destruct E as [-> _]. apply in_or_app; right; left; reflexivity. }
  rewrite Forall_forall in Hf. auto.
Qed.

Lemma topo_engine_lemma g res : wf g -> acyclic g ->
  exists order tr out,
    topo_setup g = Some (Some order) /\ topo_run res order st_default = (tr, out) /\
    starts_after_deps g tr /\ starts_once tr /\
    (* one element at a time *)
    (exists p, tr = seq_trace res p) /\
    ((forall e, In e (els g) -> (0 <= code (res e))%Z) -> all_ran g tr /\ out = EReturn st_default) /\
    (forall f, In f (els g) -> (code (res f) < 0)%Z ->
       exists f' tr', (code (res f') < 0)%Z /\ tr = tr' ++ [GStart f'; GFinish f' (res f')] /\
         (forall e r, In (GFinish e r) tr' -> (0 <= code r)%Z) /\ out = check_result (res f')).
Proof.
  intros Hwf Ha. destruct (topo_setup_spec g Hwf) as [H _]. destruct (H Ha) as [l [El [Hp Ho]]].
  destruct (topo_run res l st_default) as [tr out] eqn:Er. exists l, tr, out.
  assert (Hnd : NoDup l) by (eapply Permutation_NoDup; [symmetry; exact Hp|apply Hwf]).
  assert (Hin : incl l (els g)) by (intros x Hx; eapply Permutation_in; eassumption).
  split; [exact El|]. split; [exact Er|].
  destruct (topo_run_shape _ _ _ _ Er) as [[Hf [Ht Hout]]|[p [f [q [Eo [Hf [Hn [Ht Hout]]]]]]]].
  - subst tr out.
    assert (Hok : forall x y, before l x y -> (0 <= code (res x))%Z).
    { intros x y Hb. apply before_in in Hb. rewrite Forall_forall in Hf. apply Hf, Hb. }
    split; [eapply (seq_trace_deps g res l Hnd Ho Hin l []); [rewrite app_nil_r; reflexivity|exact Hok]|].
    split; [unfold starts_once; rewrite seq_trace_starts; exact Hnd|].
    split; [eauto|]. split.
    + intros _. split; [|reflexivity]. split; [rewrite seq_trace_starts|rewrite seq_trace_finishes]; exact Hp.
    + intros f Hfin Hneg. rewrite Forall_forall in Hf. specialize (Hf f). assert (In f l) by (eapply Permutation_in; [symmetry; exact Hp|exact Hfin]). specialize (Hf H0). lia.
  - subst tr out.
    assert (El2 : l = (p ++ [f]) ++ q) by (rewrite <- app_assoc; exact Eo).
    split; [eapply (seq_trace_deps g res l Hnd Ho Hin _ q El2); intros x y; apply before_first_error; exact Hf|].
    split; [unfold starts_once; rewrite seq_trace_starts; rewrite El2 in Hnd; apply NoDup_app_iff in Hnd; apply Hnd|].
    split; [eauto|]. split.
    + intros Hall. assert (In f (els g)) by (apply Hin; rewrite Eo; apply in_or_app; right; left; reflexivity). specialize (Hall f H0). lia.
    + intros _ _ _. exists f, (seq_trace res p). split; [exact Hn|]. split; [unfold seq_trace; rewrite flat_map_app; reflexivity|].
      split; [|reflexivity]. intros e r Hr. unfold seq_trace in Hr. apply in_flat_map in Hr. destruct Hr as [x [Hx [E|[E|[]]]]]; [discriminate|].
      inversion E; subst. rewrite Forall_forall in Hf. auto.
Qed.
