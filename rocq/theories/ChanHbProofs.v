From Verif Require Import ChanHbModel ChanHbSpec.
From Coq Require Import Lia.
Local Open Scope nat_scope.
Local Open Scope list_scope.

(** * Logs *)
Lemma nth_snoc {A} (m : list A) e i x : nth_error (m ++ [e]) i = Some x -> (i < length m /\ nth_error m i = Some x) \/ (i = length m /\ x = e).
Proof.
  intro H. destruct (Nat.lt_ge_cases i (length m)) as [L|L]; [left; split; [exact L|]; now rewrite nth_error_app1 in H|right].
  rewrite nth_error_app2 in H by exact L. destruct (i - length m) as [|d] eqn:D; cbn in H; [injection H as <-; split; [lia|reflexivity]|destruct d; discriminate].
Qed.
Lemma nth_last {A} (m : list A) e : nth_error (m ++ [e]) (length m) = Some e.
Proof. rewrite nth_error_app2, Nat.sub_diag by lia. reflexivity. Qed.
Lemma nth_old {A} (m m' : list A) i x : nth_error m i = Some x -> nth_error (m ++ m') i = Some x.
Proof. intro H. rewrite nth_error_app1; [exact H|]. apply nth_error_Some. congruence. Qed.
Lemma sooner_lt m i j : sooner m i j -> i < j.
Proof. induction 1; lia. Qed.
Lemma sooner_app m m' i j : sooner m i j -> sooner (m ++ m') i j.
Proof.
  induction 1 as [i j t x y L H1 H2|i j t u c L H1 H2|i k j H1 IH1 H2 IH2].
  - eapply so_thread; [exact L|apply nth_old; exact H1|apply nth_old; exact H2].
  - eapply so_sync; [exact L|apply nth_old; exact H1|apply nth_old; exact H2].
  - eapply so_trans; eassumption.
Qed.
(** Position [i] is known to thread [t]. *)
Definition kn (m : clog) (i t : nat) : Prop := exists p x, nth_error m p = Some (t, x) /\ (i = p \/ sooner m i p).
Definition rl (m : clog) (i c : nat) : Prop := exists p a, nth_error m p = Some (a, Rel c) /\ sooner m i p.
Lemma kn_app m m' i t : kn m i t -> kn (m ++ m') i t.
Proof. intros (p & x & H & K). exists p, x. split; [now apply nth_old|]. destruct K as [K|K]; [now left|right; now apply sooner_app]. Qed.
Lemma rl_app m m' i c : rl m i c -> rl (m ++ m') i c.
Proof. intros (p & a & H & K). exists p, a. split; [now apply nth_old|now apply sooner_app]. Qed.
Lemma kn_next m i t x : kn m i t -> sooner (m ++ [(t, x)]) i (length m).
Proof.
  intros (p & y & H & K). assert (L : p < length m) by (apply nth_error_Some; congruence).
  assert (S : sooner (m ++ [(t, x)]) p (length m)) by (eapply so_thread; [exact L|apply nth_old; exact H|apply nth_last]). destruct K as [->|K]; [exact S|eapply so_trans; [apply sooner_app; exact K|exact S]].
Qed.
Lemma rl_next m i t c : rl m i c -> sooner (m ++ [(t, Acq c)]) i (length m).
Proof.
  intros (p & y & H & K). assert (L : p < length m) by (apply nth_error_Some; congruence). eapply so_trans; [apply sooner_app; exact K|]. eapply so_sync; [exact L|apply nth_old; exact H|apply nth_last].
Qed.
Lemma content_app c m m' : content c (m ++ m') = fold_left (fun q e => match snd e with
                        | Note (NPut d o) => if Nat.eqb c d then q ++ [o] else q
                        | Note (NGot d _) | Note (NLost d _) => if Nat.eqb c d then tl q else q
                        | _ => q end) m' (content c m).
Proof. apply fold_left_app. Qed.
Lemma firstn_snoc {A} (m : list A) n e : nth_error m n = Some e -> firstn (S n) m = firstn n m ++ [e].
Proof. revert n. induction m as [|x m IH]; intros [|n] H; cbn in *; try discriminate; [now injection H as ->|]. f_equal. now apply IH. Qed.

(** * What every log of the model satisfies *)
Record chan_ok (m : clog) : Prop := mk_ok
  { ok_ord : forall c i j a b n n', noted m i a n -> noted m j b n' -> touches n c -> touches n' c -> i < j -> sooner m i j;
    ok_got : forall j t c o, noted m j t (NGot c o) -> exists r, content c (firstn j m) = o :: r }.
Lemma ok_plain m t e : chan_ok m -> (forall n, e = Note n -> forall c, ~ touches n c) -> chan_ok (m ++ [(t, e)]).
Proof.
  intros K H. constructor.
  - intros c i j a b n n' H1 H2 T1 T2 L. unfold noted in *. apply nth_snoc in H1, H2. destruct H2 as [[L2 H2]|[-> E2]].
    + destruct H1 as [[L1 H1]|[-> _]]; [|lia]. apply sooner_app. eapply (ok_ord _ K); eassumption.
    + injection E2 as _ E2. exfalso. exact (H _ (eq_sym E2) _ T2).
  - intros j u c o H1. unfold noted in *. apply nth_snoc in H1. destruct H1 as [[L H1]|[-> E]].
    + rewrite firstn_app, (proj2 (Nat.sub_0_le j (length m))) by lia. cbn. rewrite app_nil_r. eapply (ok_got _ K). exact H1.
    + injection E as _ E. exfalso. exact (H _ (eq_sym E) c eq_refl).
Qed.
Lemma ok_chan m t n c : chan_ok m -> touches n c -> (forall i b n', noted m i b n' -> touches n' c -> kn m i t) -> (forall o, n = NGot c o -> exists r, content c m = o :: r) -> chan_ok (m ++ [(t, Note n)]).
Proof.
  intros K T A G. constructor.
  - intros d i j a b n1 n2 H1 H2 T1 T2 L. unfold noted in *. apply nth_snoc in H1, H2. destruct H2 as [[L2 H2]|[-> E2]].
    + destruct H1 as [[L1 H1]|[-> _]]; [|lia]. apply sooner_app. eapply (ok_ord _ K); eassumption.
    + injection E2 as -> ->. assert (d = c) as -> by (destruct n; cbn in T, T2; try contradiction; congruence). destruct H1 as [[L1 H1]|[-> _]]; [|lia]. apply kn_next. eapply A; eassumption.
  - intros j u d o H1. unfold noted in *. apply nth_snoc in H1. destruct H1 as [[L H1]|[-> E]].
    + rewrite firstn_app, (proj2 (Nat.sub_0_le j (length m))) by lia. cbn. rewrite app_nil_r. eapply (ok_got _ K). exact H1.
    + injection E as -> <-. cbn in T. subst d. rewrite firstn_app, Nat.sub_diag, firstn_all. cbn. rewrite app_nil_r. now apply G.
Qed.
Definition inside (p : xpc) (c : nat) : Prop := match p with XIn d _ _ | XPut d _ | YIn d | YTake d | XUn d => d = c | _ => False end.
Record xinv (s : xst) : Prop := mk_xinv
  { v_ok : chan_ok (x_log s);
    v_q : forall c, x_q s c = content c (x_log s);
    v_lock : forall c t, x_lock s c = Some t <-> inside (x_pc s t) c;
    v_kn : forall c t i b n, x_lock s c = Some t -> noted (x_log s) i b n -> touches n c -> kn (x_log s) i t;
    v_rl : forall c i b n, x_lock s c = None -> noted (x_log s) i b n -> touches n c -> rl (x_log s) i c }.
Lemma xinv_new : xinv x_new.
Proof.
  assert (NO : forall i b n, ~ noted [] i b n) by (intros i b n H; unfold noted in H; now destruct i).
  constructor; cbn; try easy.
  - constructor; [intros c i j a b n n' H|intros j t c o H]; now apply NO in H.
  - intros c i b n _ H. now apply NO in H.
Qed.
Definition same_place (p p' : xpc) : Prop := forall c, inside p c <-> inside p' c.
(** A step that neither locks nor unlocks and does not access a channel. *)
Lemma inv_quiet s t p es : xinv s -> same_place (x_pc s t) p -> (forall e, In e es -> exists o w, e = Note (NUse o w)) -> length es <= 1 -> xinv (goto s t p es).
Proof.
  intros V SP HE LE. assert (LK : forall c u, x_lock s c = Some u <-> inside (upd (x_pc s) t p u) c).
  { intros c u. rewrite (v_lock _ V). destruct (Nat.eq_dec u t) as [->|NE]; [rewrite upd_same; apply SP|now rewrite upd_other by exact NE]. }
  destruct es as [|e [|]]; [| |cbn in LE; lia].
  - unfold goto. cbn [map]. rewrite app_nil_r. constructor; cbn [x_q x_lock x_pc x_log]; try apply V. exact LK.
  - destruct (HE e (or_introl eq_refl)) as (o & w & ->). unfold goto. cbn [map]. constructor; cbn [x_q x_lock x_pc x_log].
    + apply ok_plain; [apply V|]. intros n E. injection E as <-. now intros c [].
    + intro c. rewrite content_app. cbn. apply V.
    + exact LK.
    + intros c u i b n L H T. apply nth_snoc in H. destruct H as [[_ H]|[_ E]]; [|injection E as _ ->; destruct T]. apply kn_app. eapply (v_kn _ V); eassumption.
    + intros c i b n L H T. apply nth_snoc in H. destruct H as [[_ H]|[_ E]]; [|injection E as _ ->; destruct T]. apply rl_app. eapply (v_rl _ V); eassumption.
Qed.
(** Locking. *)
Lemma inv_enter s t c p s' : xinv s -> (forall d, ~ inside (x_pc s t) d) -> (forall d, inside p d <-> d = c) -> enter s t c p = Some s' -> xinv s'.
Proof.
  intros V NI IN E. unfold enter in E. destruct (x_lock s c) eqn:L; [discriminate|]. injection E as <-. unfold goto, locks. cbn [x_q x_lock x_pc x_log map].
  assert (OLD : forall i b n, noted (x_log s ++ [(t, Acq c)]) i b n -> noted (x_log s) i b n) by (intros i b n H; apply nth_snoc in H; destruct H as [[_ H]|[_ E]]; [exact H|discriminate]).
  constructor; cbn [x_q x_lock x_pc x_log].
  - apply ok_plain; [apply V|discriminate].
  - intro d. rewrite content_app. cbn. apply V.
  - intros d u. destruct (Nat.eq_dec d c) as [->|ND]; [rewrite upd_same|rewrite upd_other by exact ND].
    + destruct (Nat.eq_dec u t) as [->|NU]; [rewrite upd_same; split; [intros _; now apply IN|reflexivity]|rewrite upd_other by exact NU]. rewrite <- (v_lock _ V), L. split; [intro X; injection X as <-; now destruct NU|discriminate].
    + rewrite (v_lock _ V). destruct (Nat.eq_dec u t) as [->|NU]; [rewrite upd_same|now rewrite upd_other by exact NU]. split; [intro X; destruct (NI _ X)|intro X; apply IN in X; contradiction].
  - intros d u i b n LD H T. apply OLD in H. destruct (Nat.eq_dec d c) as [->|ND]; [rewrite upd_same in LD|rewrite upd_other in LD by exact ND].
    + injection LD as <-. exists (length (x_log s)), (Acq c). split; [apply nth_last|]. right. apply rl_next. eapply (v_rl _ V); eassumption.
    + apply kn_app. eapply (v_kn _ V); eassumption.
  - intros d i b n LD H T. apply OLD in H. destruct (Nat.eq_dec d c) as [->|ND]; [rewrite upd_same in LD; discriminate|rewrite upd_other in LD by exact ND]. apply rl_app. eapply (v_rl _ V); eassumption.
Qed.
(** Unlocking. *)
Lemma inv_leave s t c p : xinv s -> (forall d, inside (x_pc s t) d <-> d = c) -> (forall d, ~ inside p d) -> xinv (goto (locks s c None) t p [Rel c]).
Proof.
  intros V IN NI. unfold goto, locks. cbn [x_q x_lock x_pc x_log map]. assert (L : x_lock s c = Some t) by (apply (v_lock _ V); now apply IN).
  assert (OLD : forall i b n, noted (x_log s ++ [(t, Rel c)]) i b n -> noted (x_log s) i b n) by (intros i b n H; apply nth_snoc in H; destruct H as [[_ H]|[_ E]]; [exact H|discriminate]).
  constructor; cbn [x_q x_lock x_pc x_log].
  - apply ok_plain; [apply V|discriminate].
  - intro d. rewrite content_app. cbn. apply V.
  - intros d u. destruct (Nat.eq_dec d c) as [->|ND]; [rewrite upd_same|rewrite upd_other by exact ND].
    + split; [discriminate|]. destruct (Nat.eq_dec u t) as [->|NU]; [rewrite upd_same; intro X; destruct (NI _ X)|rewrite upd_other by exact NU]. rewrite <- (v_lock _ V), L. intro X. injection X as <-. now destruct NU.
    + rewrite (v_lock _ V). destruct (Nat.eq_dec u t) as [->|NU]; [rewrite upd_same|now rewrite upd_other by exact NU]. split; [intro X; apply IN in X; contradiction|intro X; destruct (NI _ X)].
  - intros d u i b n LD H T. apply OLD in H. destruct (Nat.eq_dec d c) as [->|ND]; [rewrite upd_same in LD; discriminate|rewrite upd_other in LD by exact ND]. apply kn_app. eapply (v_kn _ V); eassumption.
  - intros d i b n LD H T. apply OLD in H. destruct (Nat.eq_dec d c) as [->|ND]; [rewrite upd_same in LD|rewrite upd_other in LD by exact ND].
    + exists (length (x_log s)), t. split; [apply nth_last|]. apply kn_next. eapply (v_kn _ V); eassumption.
    + apply rl_app. eapply (v_rl _ V); eassumption.
Qed.
(** An access of the channel whose mutex is held. *)
Lemma inv_access s t c p n q : xinv s -> inside (x_pc s t) c -> same_place (x_pc s t) p -> touches n c -> (forall o, n = NGot c o -> exists r, x_q s c = o :: r) ->
  content c (x_log s ++ [(t, Note n)]) = q -> xinv (goto (fill s c q) t p [Note n]).
Proof.
  intros V IN SP T G Q. unfold goto, fill. cbn [x_q x_lock x_pc x_log map]. pose proof (proj2 (v_lock _ V c t) IN) as L. constructor; cbn [x_q x_lock x_pc x_log].
  - eapply ok_chan; [apply V|exact T| |intros o E; rewrite <- (v_q _ V); now apply G]. intros i b n' H T'. eapply (v_kn _ V); eassumption.
  - intro d. destruct (Nat.eq_dec d c) as [->|ND]; [now rewrite upd_same|rewrite upd_other by exact ND]. rewrite (v_q _ V), content_app. cbn [fold_left snd]. destruct n; cbn in T; try contradiction; subst; try reflexivity; apply Nat.eqb_neq in ND; now rewrite ND.
  - intros d u. rewrite (v_lock _ V). destruct (Nat.eq_dec u t) as [->|NE]; [rewrite upd_same; apply SP|now rewrite upd_other by exact NE].
  - intros d u i b n' LD H T'. apply nth_snoc in H. destruct H as [[_ H]|[-> E]]; [apply kn_app; eapply (v_kn _ V); eassumption|]. injection E as -> ->. assert (d = c) as -> by (destruct n; cbn in T, T'; try contradiction; congruence).
    assert (u = t) as -> by congruence. exists (length (x_log s)), (Note n). split; [apply nth_last|now left].
  - intros d i b n' LD H T'. apply nth_snoc in H. destruct H as [[_ H]|[-> E]]; [apply rl_app; eapply (v_rl _ V); eassumption|]. injection E as -> ->. assert (d = c) as -> by (destruct n; cbn in T, T'; try contradiction; congruence). congruence.
Qed.
Lemma fill_same s c : forall d, upd (x_q s) c (x_q s c) d = x_q s d.
Proof. intro d. destruct (Nat.eq_dec d c) as [->|N]; [apply upd_same|now apply upd_other]. Qed.
Lemma xinv_ext s s' : (forall c, x_q s' c = x_q s c) -> x_lock s' = x_lock s -> x_pc s' = x_pc s -> x_log s' = x_log s -> xinv s -> xinv s'.
Proof. intros E1 E2 E3 E4 V. constructor; rewrite ?E2, ?E3, ?E4; try apply V. intro c. rewrite E1. apply V. Qed.
Lemma inv_look s t c p : xinv s -> inside (x_pc s t) c -> same_place (x_pc s t) p -> xinv (goto s t p [Note (NIdx c)]).
Proof.
  intros V IN SP. apply xinv_ext with (s := goto (fill s c (x_q s c)) t p [Note (NIdx c)]); try reflexivity.
  - intro d. cbn [goto fill x_q]. symmetry. apply fill_same.
  - apply inv_access; auto; [reflexivity|discriminate|]. rewrite content_app. cbn. symmetry. apply V.
Qed.
Lemma upd_twice {A} (f : nat -> A) k a b : forall x, upd (upd f k a) k b x = upd f k b x.
Proof. intro x. unfold upd. now destruct (Nat.eqb x k). Qed.
Section R.
Variable room : nat -> nat.
Lemma xinv_pc s s' : x_q s' = x_q s -> x_lock s' = x_lock s -> (forall t, x_pc s' t = x_pc s t) -> x_log s' = x_log s -> xinv s -> xinv s'.
Proof. intros E1 E2 E3 E4 V. constructor; rewrite ?E1, ?E2, ?E4; try apply V. intros c t. rewrite E3. apply V. Qed.
Lemma two s t p p1 e1 e2 : (forall u, x_pc (goto (goto s t p1 [e1]) t p [e2]) u = x_pc (goto s t p [e1; e2]) u) /\ x_log (goto (goto s t p1 [e1]) t p [e2]) = x_log (goto s t p [e1; e2]).
Proof. unfold goto. cbn [x_pc x_log map]. split; [apply upd_twice|]. now rewrite <- app_assoc. Qed.
Lemma xstep_inv s l s' : xinv s -> xstep room s l = Some s' -> xinv s'.
Proof.
  intros V E. destruct l as [t o w|t c o g|t c|t|t]; cbn [xstep] in E.
  - destruct (x_pc s t) eqn:P; try discriminate. injection E as <-. apply inv_quiet; auto; [rewrite P; now intro|]. intros e [<-|[]]. eauto.
  - destruct (x_pc s t) eqn:P; try discriminate. injection E as <-. apply inv_quiet; auto; [rewrite P; now intro|intros e []].
  - destruct (x_pc s t) eqn:P; try discriminate. injection E as <-. apply inv_quiet; auto; [rewrite P; now intro|intros e []].
  - assert (SLEEP : forall c p, x_pc s t = p -> (forall d, inside p d <-> d = c) -> forall p', (forall d, ~ inside p' d) -> xinv (goto (locks s c None) t p' [Note (NIdx c); Rel c])).
    { intros c p P IN p' NI. set (s1 := goto s t p [Note (NIdx c)]). assert (V1 : xinv s1). { apply inv_look; [exact V|rewrite P; now apply IN|rewrite P; now intro]. }
      assert (V2 : xinv (goto (locks s1 c None) t p' [Rel c])). { apply inv_leave; [exact V1| |exact NI]. intro d. unfold s1, goto. cbn [x_pc]. rewrite upd_same. apply IN. }
      eapply xinv_pc; [| | | |exact V2]; try reflexivity.
      - intro u. unfold s1, goto, locks. cbn [x_pc]. symmetry. apply upd_twice.
      - unfold s1, goto, locks. cbn [x_log map]. now rewrite <- app_assoc. }
    destruct (x_pc s t) as [|c o g|c o g|c o|c o|c|c|c|c|c] eqn:P.
    + discriminate.
    + eapply inv_enter; [exact V| | |exact E]; [rewrite P; auto|cbn; intuition].
    + destruct (length (x_q s c) <? room c); [injection E as <-; apply inv_look; [exact V|rewrite P; reflexivity|rewrite P; now intro]|]. destruct g; injection E as <-.
      * eapply SLEEP; [reflexivity|cbn; intuition|intros d []].
      * destruct (x_q s c) as [|x r] eqn:Q; cbn [tl].
        -- apply xinv_ext with (s := goto s t (XPut c o) [Note (NIdx c)]); try reflexivity; [intro d; cbn [goto fill x_q]; rewrite <- Q; apply fill_same|]. apply inv_look; [exact V|rewrite P; reflexivity|rewrite P; now intro].
        -- set (s1 := goto s t (XPut c o) [Note (NIdx c)]). assert (V1 : xinv s1) by (apply inv_look; [exact V|rewrite P; reflexivity|rewrite P; now intro]).
           assert (P1 : x_pc s1 t = XPut c o) by apply upd_same.
           assert (V2 : xinv (goto (fill s1 c r) t (XPut c o) [Note (NLost c x)])).
           { apply inv_access; [exact V1|rewrite P1; reflexivity|rewrite P1; now intro|reflexivity|discriminate|]. rewrite content_app, <- (v_q _ V1). cbn. now rewrite Nat.eqb_refl, Q. }
           eapply xinv_pc; [| | | |exact V2]; try reflexivity.
           ++ intro u. unfold s1, goto, fill. cbn [x_pc]. symmetry. apply upd_twice.
           ++ unfold s1, goto, fill. cbn [x_log map]. now rewrite <- app_assoc.
      * apply inv_look; [exact V|rewrite P; reflexivity|rewrite P; now intro].
    + eapply inv_enter; [exact V| | |exact E]; [rewrite P; auto|cbn; intuition].
    + injection E as <-. apply inv_access; [exact V|rewrite P; reflexivity|rewrite P; now intro|reflexivity|discriminate|]. rewrite content_app, <- (v_q _ V). cbn. now rewrite Nat.eqb_refl.
    + eapply inv_enter; [exact V| | |exact E]; [rewrite P; auto|cbn; intuition].
    + destruct (x_q s c) as [|x r] eqn:Q; injection E as <-; [eapply SLEEP; [reflexivity|cbn; intuition|intros d []]|apply inv_look; [exact V|rewrite P; reflexivity|rewrite P; now intro]].
    + eapply inv_enter; [exact V| | |exact E]; [rewrite P; auto|cbn; intuition].
    + destruct (x_q s c) as [|x r] eqn:Q; [discriminate|]. injection E as <-. apply inv_access; [exact V|rewrite P; reflexivity|rewrite P; now intro|reflexivity| |].
      * intros o X. injection X as <-. eauto.
      * rewrite content_app, <- (v_q _ V). cbn. now rewrite Nat.eqb_refl, Q.
    + injection E as <-. apply inv_leave; [exact V|rewrite P; cbn; intuition|intros d []].
  - destruct (x_pc s t) as [|c o g|c o g|c o|c o|c|c|c|c|c] eqn:P; try discriminate. destruct (x_q s c) eqn:Q; [|discriminate]. injection E as <-. apply inv_look; [exact V|rewrite P; reflexivity|rewrite P; now intro].
Qed.
Lemma xrun_inv ls : forall s s', xinv s -> xrun room s ls = Some s' -> xinv s'.
Proof.
  induction ls as [|l ls IH]; intros s s' V E; cbn in E; [injection E as <-; exact V|]. destruct (xstep room s l) as [s1|] eqn:E1; [|discriminate]. eapply IH; [eapply xstep_inv; eassumption|exact E].
Qed.
End R.

(** * Who may use what *)
Lemma holder_app o t0 m e : holder o t0 (m ++ [e]) = match snd e with
                        | Note (NPut _ o') => if Nat.eqb o o' then None else holder o t0 m
                        | Note (NGot _ o') => if Nat.eqb o o' then Some (fst e) else holder o t0 m
                        | _ => holder o t0 m end.
Proof. unfold holder. rewrite fold_left_app. reflexivity. Qed.
Lemma content_snoc c m t e : content c (m ++ [(t, e)]) = match e with
                        | Note (NPut d o) => if Nat.eqb c d then content c m ++ [o] else content c m
                        | Note (NGot d _) | Note (NLost d _) => if Nat.eqb c d then tl (content c m) else content c m
                        | _ => content c m end.
Proof. rewrite content_app. reflexivity. Qed.
Notation occ := (count_occ Nat.eq_dec).
Lemma occ_tl l o : occ (tl l) o <= occ l o.
Proof. destruct l as [|x l]; cbn; [lia|]. destruct (Nat.eq_dec x o); lia. Qed.
Section H.
Variables (m : clog) (o t0 : nat).
Hypothesis K : chan_ok m.
Hypothesis HO : handed_on o t0 m.
Definition use_at (i : nat) : Prop := exists t w, noted m i t (NUse o w).
Lemma handed_inv n : n <= length m ->
  match holder o t0 (firstn n m) with
  | Some t => (forall c, occ (content c (firstn n m)) o = 0) /\ forall i, i < n -> use_at i -> exists q x, q < n /\ nth_error m q = Some (t, x) /\ (i = q \/ sooner m i q)
  | None => exists c q u, q < n /\ noted m q u (NPut c o) /\ (forall i, i < n -> use_at i -> sooner m i q) /\ occ (content c (firstn n m)) o <= 1 /\ forall d, d <> c -> occ (content d (firstn n m)) o = 0
  end.
Proof.
  induction n as [|n IH]; intro LN; [cbn; split; [reflexivity|intros i H; lia]|]. specialize (IH ltac:(lia)).
  destruct (nth_error m n) as [[t e]|] eqn:EN; [|apply nth_error_None in EN; lia]. rewrite (firstn_snoc m n _ EN), holder_app. cbn [snd fst].
  set (p := firstn n m) in *.
  (* events that change neither holder nor, upwards, the contents *)
  assert (KEEP : ((exists w, e = Note (NUse o w)) -> holder o t0 p = Some t) -> (forall c, occ (content c (p ++ [(t, e)])) o <= occ (content c p) o) ->
    match holder o t0 p with
    | Some h => (forall c, occ (content c (p ++ [(t, e)])) o = 0) /\ forall i, i < S n -> use_at i -> exists q x, q < S n /\ nth_error m q = Some (h, x) /\ (i = q \/ sooner m i q)
    | None => exists c q u, q < S n /\ noted m q u (NPut c o) /\ (forall i, i < S n -> use_at i -> sooner m i q) /\ occ (content c (p ++ [(t, e)])) o <= 1 /\ forall d, d <> c -> occ (content d (p ++ [(t, e)])) o = 0
    end).
  { intros HU HC. destruct (holder o t0 p) as [h|].
    - destruct IH as [IH1 IH2]. split; [intro c; specialize (HC c); rewrite IH1 in HC; lia|]. intros i LI U. destruct (Nat.eq_dec i n) as [->|NI].
      + destruct U as (t' & w & U). unfold noted in U. rewrite EN in U. injection U as -> ->. assert (X : Some h = Some t') by (apply HU; eauto). injection X as ->. exists n, (Note (NUse o w)). auto.
      + destruct (IH2 i ltac:(lia) U) as (q & x & Q & Q1 & Q2). exists q, x. auto.
    - destruct IH as (c & q & u & Q & Q1 & Q2 & Q3 & Q4). exists c, q, u. split; [lia|]. split; [exact Q1|]. split; [|split].
      + intros i LI U. destruct (Nat.eq_dec i n) as [->|NI]; [|apply Q2; [lia|exact U]]. destruct U as (t' & w & U). unfold noted in U. rewrite EN in U. injection U as -> ->. assert (X : None = Some t') by (apply HU; eauto). discriminate.
      + specialize (HC c). lia.
      + intros d ND. specialize (HC d). rewrite (Q4 d ND) in HC. lia. }
  destruct e as [[o' w|c|c o'|c o'|c o']|c|c].
  - apply KEEP; [|intro c; now rewrite content_snoc]. intros (w' & E). injection E as -> ->. apply (HO n t (NUse o w')); [exact EN|]. left. eauto.
  - apply KEEP; [intros (w & E); discriminate|intro d; now rewrite content_snoc].
  - destruct (Nat.eqb_spec o o') as [<-|NE].
    + assert (HH : holder o t0 p = Some t) by (apply (HO n t (NPut c o)); [exact EN|right; eauto]). rewrite HH in IH. destruct IH as [IH1 IH2]. exists c, n, t. split; [lia|]. split; [exact EN|]. split; [|split].
      * intros i LI U. destruct (Nat.eq_dec i n) as [->|NI]; [destruct U as (t' & w & U); unfold noted in U; rewrite EN in U; discriminate|]. destruct (IH2 i ltac:(lia) U) as (q & x & Q & Q1 & Q2).
        assert (S : sooner m q n) by (eapply so_thread; [exact Q|exact Q1|exact EN]). destruct Q2 as [->|Q2]; [exact S|eapply so_trans; eassumption].
      * rewrite content_snoc, Nat.eqb_refl, count_occ_app, IH1. cbn. destruct (Nat.eq_dec o o); lia.
      * intros d ND. rewrite content_snoc. apply Nat.eqb_neq in ND. now rewrite ND.
    + apply KEEP; [intros (w & E); discriminate|]. intro d. rewrite content_snoc. destruct (Nat.eqb d c); [|lia]. rewrite count_occ_app. cbn. destruct (Nat.eq_dec o' o); [congruence|lia].
  - destruct (Nat.eqb_spec o o') as [<-|NE].
    + destruct (ok_got _ K n t c o EN) as (r & G). fold p in G. destruct (holder o t0 p) as [h|].
      * destruct IH as [IH1 _]. specialize (IH1 c). rewrite G in IH1. cbn in IH1. destruct (Nat.eq_dec o o); [discriminate|congruence].
      * destruct IH as (c0 & q & u & Q & Q1 & Q2 & Q3 & Q4). assert (c0 = c) as ->. { destruct (Nat.eq_dec c c0) as [->|ND]; [reflexivity|]. specialize (Q4 c ND). rewrite G in Q4. cbn in Q4. destruct (Nat.eq_dec o o); [discriminate|congruence]. }
        assert (S : sooner m q n) by (eapply (ok_ord _ K c); [exact Q1|exact EN|reflexivity|reflexivity|exact Q]). split.
        -- intro d. rewrite content_snoc. destruct (Nat.eqb_spec d c) as [->|ND]; [|now apply Q4]. rewrite G in *. cbn in *. destruct (Nat.eq_dec o o); [lia|congruence].
        -- intros i LI U. destruct (Nat.eq_dec i n) as [->|NI]; [destruct U as (t' & w & U); unfold noted in U; rewrite EN in U; discriminate|]. exists n, (Note (NGot c o)). split; [lia|]. split; [exact EN|]. right. eapply so_trans; [apply Q2; [lia|exact U]|exact S].
    + apply KEEP; [intros (w & E); discriminate|]. intro d. rewrite content_snoc. destruct (Nat.eqb d c); [apply occ_tl|lia].
  - apply KEEP; [intros (w & E); discriminate|]. intro d. rewrite content_snoc. destruct (Nat.eqb d c); [apply occ_tl|lia].
  - apply KEEP; [intros (w & E); discriminate|intro d; now rewrite content_snoc].
  - apply KEEP; [intros (w & E); discriminate|intro d; now rewrite content_snoc].
Qed.
Lemma handed_ordered i j : use_at i -> use_at j -> i < j -> sooner m i j.
Proof.
  intros U (t & w & UJ) L. assert (LJ : j < length m) by (apply nth_error_Some; unfold noted in UJ; congruence). pose proof (handed_inv j ltac:(lia)) as I.
  rewrite (HO j t (NUse o w) UJ) in I by (left; eauto). destruct I as [_ I]. destruct (I i L U) as (q & x & Q & Q1 & Q2). assert (S : sooner m q j) by (eapply so_thread; [exact Q|exact Q1|exact UJ]). destruct Q2 as [->|Q2]; [exact S|eapply so_trans; eassumption].
Qed.
End H.
Lemma content_put m c o : In o (content c m) -> exists i t, noted m i t (NPut c o).
Proof.
  induction m as [|[t e] m IH] using rev_ind; [intros []|]. rewrite content_snoc. intro H.
  assert (OLD : In o (content c m) -> exists i t', noted (m ++ [(t, e)]) i t' (NPut c o)). { intro X. destruct (IH X) as (i & t' & Y). exists i, t'. now apply nth_old. }
  destruct e as [[o' w|d|d o'|d o'|d o']|d|d]; auto; destruct (Nat.eqb_spec c d) as [<-|ND]; auto.
  - apply in_app_iff in H. destruct H as [H|[->|[]]]; [auto|]. exists (length m), t. apply nth_last.
  - apply OLD. destruct (content c m); [exact H|now right].
  - apply OLD. destruct (content c m); [exact H|now right].
Qed.
Lemma nth_firstn {A} (m : list A) n i x : nth_error (firstn n m) i = Some x -> i < n /\ nth_error m i = Some x.
Proof. revert n i. induction m as [|y m IH]; intros [|n] [|i] H; cbn in *; try discriminate; [split; [lia|exact H]|]. apply IH in H. split; [lia|apply H]. Qed.
(** What is received was sent before, and its sending happens before. *)
Lemma got_put m j t c o : chan_ok m -> noted m j t (NGot c o) -> exists i u, i < j /\ noted m i u (NPut c o) /\ sooner m i j.
Proof.
  intros K H. destruct (ok_got _ K _ _ _ _ H) as (r & G). destruct (content_put (firstn j m) c o) as (i & u & I); [rewrite G; now left|]. apply nth_firstn in I. destruct I as [L I]. exists i, u. split; [exact L|]. split; [exact I|]. eapply (ok_ord _ K c); [exact I|exact H|reflexivity|reflexivity|exact L].
Qed.
Lemma frozen_after m o t : chan_ok m -> frozen o t m -> forall j u n, noted m j u n -> ((exists w, n = NUse o w) \/ (exists c, n = NPut c o)) -> u <> t -> forall i, noted m i t (NUse o true) -> sooner m i j.
Proof.
  intros K [F1 F2] j. induction j as [j IH] using lt_wf_ind. intros u n H HN NE i W. destruct (F2 j u n H HN NE) as (k & c & L & G). destruct (got_put _ _ _ _ _ K G) as (p & v & LP & P & S).
  assert (SK : sooner m k j) by (eapply so_thread; [exact L|exact G|exact H]). eapply so_trans; [|eapply so_trans; [exact S|exact SK]].
  destruct (Nat.eq_dec v t) as [->|NV]; [|eapply (IH p ltac:(lia)); [exact P|right; eauto|exact NV|exact W]].
  destruct (F1 i t W) as [_ B]. eapply so_thread; [exact (B p c P)|exact W|exact P].
Qed.
(** * Schedules *)
Lemma no_adjacent m t u x y : t <> u -> (forall c, x <> Rel c) -> ~ sooner (m ++ [(t, x); (u, y)]) (length m) (S (length m)).
Proof.
  intros NE NR H. assert (E1 : nth_error (m ++ [(t, x); (u, y)]) (length m) = Some (t, x)) by (rewrite nth_error_app2, Nat.sub_diag by lia; reflexivity).
  assert (E2 : nth_error (m ++ [(t, x); (u, y)]) (S (length m)) = Some (u, y)) by (rewrite nth_error_app2, Nat.sub_succ_l, Nat.sub_diag by lia; reflexivity).
  inversion H as [i j a b c L H1 H2|i j a b c L H1 H2|i k j H1 H2]; subst.
  - congruence.
  - rewrite E1 in H1. injection H1 as _ ->. now apply (NR c).
  - apply sooner_lt in H1, H2. lia.
Qed.
Lemma adjacent_race m o t u w' : t <> u -> obj_race (m ++ [(t, Note (NUse o true)); (u, Note (NUse o w'))]) o.
Proof.
  intro NE. exists (length m), (S (length m)), t, u, true, w'. split; [lia|]. split; [unfold noted; rewrite nth_error_app2, Nat.sub_diag by lia; reflexivity|]. split; [unfold noted; rewrite nth_error_app2, Nat.sub_succ_l, Nat.sub_diag by lia; reflexivity|].
  split; [now left|]. split; [now apply no_adjacent|]. intro H. apply sooner_lt in H. lia.
Qed.
Section S.
Variable room : nat -> nat.
Lemma xrun_app a : forall s b, xrun room s (a ++ b) = match xrun room s a with Some s' => xrun room s' b | None => None end.
Proof. induction a as [|l a IH]; intros s b; cbn; [reflexivity|]. destruct (xstep room s l); [apply IH|reflexivity]. Qed.
Definition send_all (t c o : nat) (g : strategy) : list xlab := [XSend t c o g; XGo t; XGo t; XGo t; XGo t].
Definition recv_all (t c : nat) : list xlab := [XRecv t c; XGo t; XGo t; XGo t; XGo t].
Lemma send_run s t c o g : x_quiet s -> length (x_q s c) < room c -> exists s', xrun room s (send_all t c o g) = Some s' /\ x_quiet s' /\ x_q s' c = x_q s c ++ [o] /\ forall d, d <> c -> x_q s' d = x_q s d.
Proof.
  intros [Q1 Q2] L. eexists. split; [|split].
  - unfold send_all. cbn [xrun xstep]. rewrite Q2. cbn [goto x_pc]. rewrite upd_same. unfold enter. cbn [goto x_lock]. rewrite Q1. cbn [goto locks x_pc x_q x_lock x_log]. rewrite upd_same.
    assert (length (x_q s c) <? room c = true) as -> by now apply Nat.ltb_lt. cbn [goto locks x_pc x_q x_lock x_log]. rewrite upd_same. cbn [goto fill locks x_pc x_q x_lock x_log]. rewrite upd_same. cbn [goto fill locks x_pc x_q x_lock x_log]. reflexivity.
  - split; cbn [goto locks fill x_lock x_pc].
    + intro d. unfold upd. destruct (Nat.eqb d c); auto.
    + intro u. unfold upd. destruct (Nat.eqb u t); auto.
  - cbn [goto locks fill x_q]. split; [now rewrite upd_same|]. intros d ND. now rewrite upd_other.
Qed.
Lemma recv_run s t c o r : x_quiet s -> x_q s c = o :: r -> exists s' m, xrun room s (recv_all t c) = Some s' /\ x_quiet s' /\ x_q s' c = r /\ (forall d, d <> c -> x_q s' d = x_q s d) /\ x_log s' = m ++ [(t, Note (NGot c o)); (t, Rel c)].
Proof.
  intros [Q1 Q2] L. eexists. eexists. split; [|split].
  - unfold recv_all. cbn [xrun xstep]. rewrite Q2. cbn [goto x_pc]. rewrite upd_same. unfold enter. cbn [goto x_lock]. rewrite Q1. cbn [goto locks x_pc x_q x_lock x_log]. rewrite upd_same.
    rewrite L. cbn [goto locks x_pc x_q x_lock x_log]. rewrite upd_same, L. cbn [goto fill locks x_pc x_q x_lock x_log]. rewrite upd_same. cbn [goto fill locks x_pc x_q x_lock x_log]. reflexivity.
  - split; cbn [goto locks fill x_lock x_pc].
    + intro d. unfold upd. destruct (Nat.eqb d c); auto.
    + intro u. unfold upd. destruct (Nat.eqb u t); auto.
  - cbn [goto locks fill x_q x_log]. split; [now rewrite upd_same|]. split; [intros d ND; now rewrite upd_other|]. cbn [map]. rewrite <- app_assoc. reflexivity.
Qed.
Lemma use_run s t u o w' : x_quiet s -> exists s', xrun room s [XUse t o true; XUse u o w'] = Some s' /\ x_quiet s' /\ x_log s' = x_log s ++ [(t, Note (NUse o true)); (u, Note (NUse o w'))].
Proof.
  intros [Q1 Q2]. eexists. split; [|split].
  - cbn [xrun xstep]. rewrite Q2. cbn [goto x_pc]. assert (upd (x_pc s) t XIdle u = XIdle) as -> by (unfold upd; destruct (Nat.eqb u t); auto). reflexivity.
  - split; cbn [goto x_lock x_pc]; [exact Q1|]. intro v. unfold upd. destruct (Nat.eqb v u), (Nat.eqb v t); auto.
  - cbn [goto x_log map]. now rewrite <- app_assoc.
Qed.
End S.
