(** C100: an ann node calls the function its prepareParam names, and no other. *)
From Verif Require Import AnnModel StatusProofs ElemProofs.
From Coq Require Import Lia.
Local Open Scope Z_scope.
Local Open Scope list_scope.

(** The function each value of the enumeration stands for. *)
Inductive named : Z -> afun -> Prop :=
| nm_train : named 1 ATrain | nm_search : named 2 ASearch | nm_insert : named 3 AInsert | nm_update : named 4 AUpdate
| nm_remove : named 5 ARemove | nm_load : named 6 ALoad | nm_save : named 7 ASave | nm_edition : named 8 AEdition.
Definition behaves {A} (o : out A) : Prop := match o with Val _ | Thrown _ => True | _ => False end.

Theorem C100_dispatch : forall u, behaves (u_prepare u) -> (forall f, behaves (u_fun u f)) -> behaves (u_refresh u) ->
  snd (ann_run u) <> AUndef /\
  (forall ty, u_prepare u = Val ty ->
     (forall f, ~ named ty f) /\ (exists s, ann_run u = ([CPrepare], AStatus s) /\ (code s < 0)%Z) \/
     exists f, named ty f /\ (forall g, named ty g -> g = f) /\
       (forall s, u_fun u f = Val s -> code s < 0 -> fst (ann_run u) = [CPrepare; CFun f] /\ forall w, snd (ann_run u) = AStatus w -> code w = code s) /\
       (forall s r, u_fun u f = Val s -> 0 <= code s -> u_refresh u = Val r -> exists w, ann_run u = ([CPrepare; CFun f; CRefresh], AStatus w) /\ code w = code r) /\
       (forall m, u_fun u f = Thrown m -> ann_run u = ([CPrepare; CFun f], AThrow m))) /\
  (forall m, u_prepare u = Thrown m -> ann_run u = ([CPrepare], AThrow m)).
Proof.
  intros u BP BF BR.
  assert (T : forall ty, 0 < ty < 9 -> exists f, nth_error ann_table (Z.to_nat ty) = Some (Some f) /\ named ty f /\ forall g, named ty g -> g = f).
  { intros ty H. assert (C : ty = 1 \/ ty = 2 \/ ty = 3 \/ ty = 4 \/ ty = 5 \/ ty = 6 \/ ty = 7 \/ ty = 8) by lia.
    decompose [or] C; subst; eexists; (split; [reflexivity|]); (split; [constructor|]); intros g G; inversion G; reflexivity. }
  assert (R : forall ty f, named ty f -> 0 < ty < 9) by (intros ty f H; destruct H; lia).
  unfold ann_run. destruct (u_prepare u) as [ty|m| |] eqn:EP; try now destruct BP.
  - destruct (Z_lt_le_dec 0 ty) as [L|L]; [destruct (Z_lt_le_dec ty 9) as [G|G]|].
    + replace (ty <=? ANN_PREPARE_ERROR) with false by (symmetry; apply Z.leb_gt; exact L). replace (ANN_MAX_SIZE <=? ty) with false by (symmetry; apply Z.leb_gt; exact G). cbn [orb].
      destruct (T ty (conj L G)) as (f & -> & Nf & Uf). specialize (BF f).
      destruct (u_fun u f) as [s|m| |] eqn:EF; try now destruct BF.
      * destruct (Z_lt_le_dec (code s) 0) as [Hs|Hs].
        -- rewrite assign_err, check_status_err by (first [exact Hs|cbn; unfold STATUS_OK; lia]).
           split; [destruct (code s =? -996); discriminate|]. split; [|discriminate]. intros ty' [= <-]. right. exists f. rewrite EF. split; [exact Nf|]. split; [exact Uf|].
           split; [|split]; [|intros s' r [= <-]; lia|discriminate]. intros s' [= <-] _. destruct (code s =? -996); cbn; (split; [reflexivity|]); [discriminate|]. intros w [= <-]. reflexivity.
        -- rewrite check_status_ok by (rewrite assign_code; exact Hs). destruct (u_refresh u) as [r|m| |] eqn:ER; try now destruct BR.
           ++ split; [discriminate|]. split; [|discriminate]. intros ty' [= <-]. right. exists f. rewrite EF. split; [exact Nf|]. split; [exact Uf|].
              split; [intros s' [= <-]; lia|]. split; [|discriminate]. intros s' r' [= <-] _ [= <-]. eexists. split; [reflexivity|]. apply assign_code.
           ++ split; [discriminate|]. split; [|discriminate]. intros ty' [= <-]. right. exists f. rewrite EF. split; [exact Nf|]. split; [exact Uf|].
              split; [intros s' [= <-]; lia|]. split; [discriminate|discriminate].
      * split; [discriminate|]. split; [|discriminate]. intros ty' [= <-]. right. exists f. rewrite EF. split; [exact Nf|]. split; [exact Uf|].
        split; [discriminate|]. split; [discriminate|]. now intros m' [= <-].
    + replace (ANN_MAX_SIZE <=? ty) with true by (symmetry; apply Z.leb_le; exact G). rewrite Bool.orb_true_r. split; [discriminate|]. split; [|discriminate].
      intros ty' [= <-]. left. split; [intros f Hf; apply R in Hf; lia|]. eexists. split; [reflexivity|]. vm_compute. reflexivity.
    + replace (ty <=? ANN_PREPARE_ERROR) with true by (symmetry; apply Z.leb_le; exact L). cbn [orb]. split; [discriminate|]. split; [|discriminate].
      intros ty' [= <-]. left. split; [intros f Hf; apply R in Hf; lia|]. eexists. split; [reflexivity|]. vm_compute. reflexivity.
  - split; [discriminate|]. split; [discriminate|]. now intros m' [= <-].
Qed.
Print Assumptions C100_dispatch.
(** A node that only implements search. *)
Definition searcher (ty : Z) : user := mkU (Val ty) (fun f => match f with ASearch => Val st_default | _ => Val no_support end) (Val st_default).
Example C100_case : ann_run (searcher 2) = ([CPrepare; CFun ASearch; CRefresh], AStatus st_default) /\ ann_run (searcher 7) = ([CPrepare; CFun ASave], AStatus no_support) /\
  fst (ann_run (searcher 9)) = [CPrepare] /\ fst (ann_run (searcher (-3))) = [CPrepare].
Proof. repeat split. Qed.
