(** Properties C45, C46 and C50 (containers), and C59 on self-insertion. *)
From Verif Require Import ContProofs.
From Coq Require Import Lia.
Local Open Scope nat_scope.
Local Open Scope list_scope.

(** C45. On a cache of capacity at least one, no operation is undefined; a get hits exactly when its key is among the [c]
    most recently used distinct keys since the last clear, and answers the value last put; the entries are exactly
    those keys, so at most [c]. *)
Theorem C45_lru : forall (V : Type) c, 0 < c -> forall h : list (lop V),
  exists s outs, lru_run (lru_new c) h = Some (s, outs) /\
    (forall h1 k h2, h = h1 ++ LGet k :: h2 ->
       nth_error outs (length h1) = Some (if memb k (firstn c (used c (rev h1))) then last_put (rev h1) k else None) /\
       (memb k (firstn c (used c (rev h1))) = true -> exists v, last_put (rev h1) k = Some v)) /\
    map (fun n => ln_key n) (l_nodes s) = firstn c (used c (rev h)) /\ NoDup (firstn c (used c (rev h))) /\
    l_size s = length (l_nodes s) /\ length (l_nodes s) <= c.
Proof.
  intros V c Hc h. destruct (lru_run_inv c Hc h [] (lru_new c) (lru_inv_new c)) as [s [E H]]. rewrite app_nil_r in H.
  exists s, (lru_answers c [] h). split; [easy|]. split; [|split; [|split; [|split]]].
  - intros h1 k h2 Eh. rewrite Eh, lru_answers_nth, app_nil_r. split; [easy|]. intros Hm.
    destruct (lru_run_inv c Hc h1 [] (lru_new c) (lru_inv_new c)) as [s1 [_ H1]]. rewrite app_nil_r in H1.
    apply memb_in in Hm. rewrite <- (li_keys _ _ _ H1) in Hm. apply in_map_iff in Hm. destruct Hm as [n [<- Hn]].
    exists (ln_val n). now apply (li_val _ _ _ H1).
  - apply (li_keys _ _ _ H).
  - rewrite <- (li_keys _ _ _ H). now apply (keys_nodup c (rev h)).
  - apply (li_size _ _ _ H).
  - rewrite <- (map_length (fun n => ln_key n)). change (length (keys (l_nodes s)) <= c). rewrite (li_keys _ _ _ H). apply firstn_le_length.
Qed.
Example C45_case :
  let h := [LPut 1 10; LPut 2 20; LGet 1; LPut 3 30; LGet 2; LGet 1; LPut 1 11; LGet 1; LClear; LGet 1] in
  match lru_run (lru_new 2) h with
  | Some (s, outs) => outs = [None; None; Some 10; None; None; Some 10; None; Some 11; None; None] /\ l_size s = 0
  | None => False
  end.
Proof. vm_compute. easy. Qed.
(** With capacity zero the first put is undefined behaviour, so the bound on the capacity is needed. *)
Theorem C45_capacity_zero : forall (V : Type) k (v : V), lru_run (lru_new 0) [LPut k v] = None.
Proof. reflexivity. Qed.
Print Assumptions C45_lru.

(** C46. With arguments given by value, every history is defined and the vector holds the list of the specification: size,
    iteration, membership, first and last elements, and the answer of remove. *)
Theorem C46_small_vector : forall CAP, 0 < CAP -> forall h : list vop,
  exists s, sv_run CAP sv_new (map by_value h) = Some s /\
    sv_list s = Some (vlist (rev h)) /\ sv_size s = length (vlist (rev h)) /\
    (forall x, sv_has x s = Some (memb x (vlist (rev h)))) /\
    (forall x, exists s', sv_remove x s = Some (s', memb x (vlist (rev h)))) /\
    (forall x r, vlist (rev h) = x :: r -> sv_front s = Some x) /\
    (forall x r, vlist (rev h) = r ++ [x] -> sv_back s = Some x) /\
    sv_size s <= length (sv_data s).
Proof.
  intros CAP HC h. destruct (sv_run_spec CAP HC h [] sv_new) as [s [E H]].
  { split; cbn; [easy|]. now exists []. }
  rewrite app_nil_r in H. exists s. split; [easy|]. split; [now apply sv_list_spec|]. destruct H as [Hc [rest D]].
  split; [easy|]. split; [intros x; apply sv_has_spec; split; [easy|now exists rest]|].
  split; [|split; [|split]].
  - intros x. destruct (sv_remove_spec x (vlist (rev h)) s) as [s' [Es _]]; [split; [easy|now exists rest]|]. now exists s'.
  - intros x r El. unfold sv_front. rewrite D, El. easy.
  - intros x r El. unfold sv_back. rewrite Hc, D, El, app_length, Nat.add_1_r, map_some_snoc. apply sv_read_at.
  - unfold sv_size. rewrite Hc, D, app_length, map_length. lia.
Qed.
Example C46_case :
  let h := [VInsert 1 true; VInsert 2 true; VInsert 1 true; VInsert 1 false; VInsert 3 true; VInsert 4 true; VInsert 5 false; VRemove 1; VRemove 9] in
  match sv_run 4 sv_new (map by_value h) with Some s => sv_list s = Some [2; 1; 3; 4; 5] | None => False end.
Proof. vm_compute. easy. Qed.
Print Assumptions C46_small_vector.

(** C59, refuted: inserting an element of the vector into itself, at a moment when the vector must grow, reads freed memory. *)
Theorem C59_self_insert_refuted :
  exists h s, sv_run 4 sv_new h = Some s /\ sv_list s = Some [1; 2; 3; 4] /\ arg_val (ARef 0) s = Some 1 /\
    sv_insert 4 (ARef 0) false s = None.
Proof. exists [SInsert (AVal 1) true; SInsert (AVal 2) true; SInsert (AVal 3) true; SInsert (AVal 4) true]. eexists. vm_compute. easy. Qed.
(** C59, what holds: with the duplicate check (the default) a self-insertion changes nothing, and without it, it appends the
    element whenever the allocation has room. *)
Theorem C59_self_insert_partial : forall CAP, 0 < CAP -> forall h s i x,
  sv_run CAP sv_new (map by_value h) = Some s -> nth_error (vlist (rev h)) i = Some x ->
  sv_insert CAP (ARef i) true s = Some s /\
  (sv_size s < length (sv_data s) -> exists s', sv_insert CAP (ARef i) false s = Some s' /\ sv_list s' = Some (vlist (rev h) ++ [x])).
Proof.
  intros CAP HC h s i x E Hx. destruct (sv_run_spec CAP HC h [] sv_new) as [s0 [E0 H]].
  { split; cbn; [easy|]. now exists []. }
  rewrite E in E0. injection E0 as <-. rewrite app_nil_r in H. set (l := vlist (rev h)) in *.
  assert (Ha : arg_val (ARef i) s = Some x).
  { cbn. destruct H as [Hc [rest D]]. unfold sv_read. rewrite D, nth_error_app1.
    - rewrite nth_error_map, Hx. easy.
    - rewrite map_length. apply nth_error_Some. congruence. }
  split.
  - unfold sv_insert. rewrite Ha, (sv_has_spec x l s H).
    assert (memb x l = true) as -> by (apply memb_in; eapply nth_error_In; exact Hx). easy.
  - intros Hlt. destruct (sv_insert_spec CAP x false l s HC H) as [s' [E1 R]]. exists s'. split; [|now apply sv_list_spec].
    unfold sv_insert in *. rewrite Ha. cbn [arg_val] in E1. destruct (Nat.leb_spec (length (sv_data s)) (sv_cur s)); [unfold sv_size in Hlt; lia|exact E1].
Qed.
Example C59_case : match sv_run 4 sv_new (map by_value [VInsert 7 true]) with
  | Some s => match sv_insert 4 (ARef 0) false s with Some s' => sv_list s' = Some [7; 7] | None => False end | None => False end.
Proof. vm_compute. easy. Qed.
Print Assumptions C59_self_insert_partial.

(** C50. With the trace enabled, after any sequence of accesses and cleans the trace lists exactly the users since the last
    clean, each once, and one user stands before another exactly when it used the parameter first. Without it, asking for
    the trace throws. *)
Theorem C50_trace : forall h : list btop,
  (exists l, bt_get (bt_run (mkBP true (mkUA [] [])) h) = Some l /\ NoDup l /\
     (forall x, In x l <-> In x (uses (rev h))) /\
     (forall x y, before l x y <-> used_first (uses (rev h)) x y)) /\
  bt_get (bt_run (mkBP false (mkUA [] [])) h) = None.
Proof.
  intros h. split.
  - destruct (bt_run_rep h [] (mkBP true (mkUA [] [])) eq_refl ua_rep_nil) as [Hon [_ [H1 [H2 H3]]]].
    rewrite app_nil_r in H2, H3. unfold bt_get. rewrite Hon. eexists. split; [reflexivity|]. easy.
  - now rewrite bt_run_off.
Qed.
Example C50_case : bt_get (bt_run (mkBP true (mkUA [] [])) [BUse 9; BClean; BUse 2; BUse 1; BUse 2; BUse 3; BUse 1]) = Some [2; 1; 3].
Proof. reflexivity. Qed.
Print Assumptions C50_trace.
