(** Property theorems on timers and daemons. *)
From Verif Require Import TimerModel.
Local Open Scope Z_scope.
Local Open Scope list_scope.

(** What the next interval has to be, from what was done (newest first): the interval asked for by start; after a shot, what modify asked for if that is
    positive, and otherwise the interval less the time the shot took, or the whole interval if the shot took as long or longer. *)
Fixpoint asked (h : list tev) : Z := match h with [] => 0 | EStart iv :: _ => iv | _ :: r => asked r end.
Fixpoint due (h : list tev) : Z :=
  match h with
  | [] => 0
  | EStart iv :: _ => iv
  | EDone span ms :: r => if 0 <? ms then ms else if span <? asked r then asked r - span else asked r
  | _ :: r => due r
  end.
(** Each sleep of the timer is for the interval that is due. *)
Fixpoint punctual (h : list tev) : Prop := match h with [] => True | ESleep iv :: r => iv = due r /\ punctual r | _ :: r => punctual r end.
(** [stopped h]: between the return of stop (or the beginning of time) and the next start *)
Fixpoint stopped (h : list tev) : bool := match h with [] => true | EStart _ :: _ => false | EStopRet :: _ => true | _ :: r => stopped r end.
(** [asked_to_stop h]: from the moment stop was called *)
Fixpoint asked_to_stop (h : list tev) : bool := match h with [] => true | EStart _ :: _ => false | EStopReq :: _ => true | _ :: r => asked_to_stop r end.
(** no shot begins once stop was called *)
Fixpoint no_late_shot (h : list tev) : Prop := match h with [] => True | EShot :: r => asked_to_stop r = false /\ no_late_shot r | _ :: r => no_late_shot r end.
(** no shot is in progress when stop returns, and none until the next start *)
Fixpoint shooting (h : list tev) : bool := match h with [] => false | EShot :: _ => true | EDone _ _ :: _ => false | EStart _ :: _ => false | _ :: r => shooting r end.

Record tinv (s : timer) : Prop :=
  { ti_o : t_pc s <> TNone -> t_origin s = asked (t_log s); ti_l : t_pc s <> TNone -> t_left s = due (t_log s);
    ti_p : punctual (t_log s); ti_s : no_late_shot (t_log s);
    ti_a : t_stop s = asked_to_stop (t_log s);
    ti_u : (t_user s = UOut -> t_stop s = true -> t_pc s = TNone \/ t_pc s = TEnd \/ t_pc s = TThrew) /\ (t_user s <> UOut -> t_stop s = true /\ t_pc s <> TNone);
    ti_e : t_pc s = TNone \/ t_pc s = TEnd -> t_stop s = true;
    ti_h : stopped (t_log s) = true -> t_user s = UOut /\ t_stop s = true }.
Lemma tinv_new : tinv timer_new.
Proof. constructor; cbn; try easy; tauto. Qed.
Lemma tinv_step s l s' : tinv s -> timer_step s l = Some s' -> tinv s'.
Proof.
  intros [Io Il Ip Is Ia [Iu1 Iu2] Ie Ih] E. destruct l as [iv| | | |w t|span ms threw]; cbn [timer_step] in E.
  - destruct (t_user s) eqn:U; try discriminate. destruct (t_stop s) eqn:S; [|now injection E as <-; constructor; rewrite ?U, ?S].
    destruct (t_pc s); try discriminate; injection E as <-; constructor; cbn; try easy; (split; easy) || (intros [|]; easy).
  - destruct (t_user s) eqn:U; try discriminate. destruct (t_stop s) eqn:S; [now injection E as <-; constructor; rewrite ?U, ?S|]. injection E as <-. constructor; cbn; try easy.
    + split; [easy|]. intros _. split; [easy|]. intros P. specialize (Ie (or_introl P)). discriminate.
    + intros H. destruct (Ih H). discriminate.
  - destruct (t_user s) eqn:U; try discriminate. destruct (Iu2 ltac:(discriminate)) as [S P]. injection E as <-. constructor; cbn; try easy.
    + intros _. auto. + intros _. auto.
    + split; [easy|]. intros _. split; [easy|]. destruct (t_pc s); easy.
    + intros H. destruct (Ih H). discriminate.
  - destruct (t_user s) eqn:U; try discriminate. destruct (Iu2 ltac:(discriminate)) as [S _]. destruct (t_pc s) eqn:P; try discriminate; injection E as <-; constructor; cbn; rewrite ?S in *; try easy; try (intros _; auto); (split; [|easy]); intros _ _; auto.
  - assert (NN : t_pc s <> TNone) by (intros H; rewrite H in E; discriminate). specialize (Io NN). specialize (Il NN).
    destruct (t_pc s) eqn:P; try discriminate.
    + injection E as <-. constructor; cbn; try easy.
      * split; [|intros U; split; [now apply Iu2|destruct (t_stop s); easy]]. intros U S. rewrite S. auto.
      * destruct (t_stop s); [easy|]. intros [|]; easy.
    + injection E as <-. constructor; cbn; try easy.
      * split; [|intros U; split; [now apply Iu2|easy]]. intros U S. destruct (Iu1 U S) as [|[|]]; discriminate.
      * intros [|]; easy.
    + destruct t; [|destruct (woken || w)%bool; [|discriminate]]; injection E as <-; constructor; cbn; try easy; try (intros [|]; easy); (split; [|intros U; split; [now apply Iu2|easy]]); intros U S; destruct (Iu1 U S) as [|[|]]; discriminate.
    + destruct (t_stop s) eqn:S; injection E as <-; constructor; cbn; rewrite ?S in *; try easy; try (intros [|]; easy).
      * split; [|intros U; split; [easy|easy]]. intros U _. destruct (Iu1 U eq_refl) as [|[|]]; discriminate.
      * split; [easy|]. intros U. destruct (Iu2 U). discriminate.
  - destruct (t_pc s) eqn:P; try discriminate. specialize (Io ltac:(discriminate)). specialize (Il ltac:(discriminate)). destruct threw; injection E as <-; constructor; cbn; try easy; try (intros [|]; easy).
    + split; [intros _ _; auto|]. intros U. split; [now apply Iu2|easy].
    + intros _. unfold next_left. now rewrite Io.
    + split; [|intros U; split; [now apply Iu2|easy]]. intros U S. destruct (Iu1 U S) as [|[|]]; discriminate.
Qed.
Lemma tinv_run : forall ls s s', tinv s -> timer_run s ls = Some s' -> tinv s'.
Proof. induction ls as [|l r IH]; intros s s' I E; cbn [timer_run] in E; [now injection E as <-|]. destruct (timer_step s l) as [s1|] eqn:E1; [|discriminate]. apply (IH s1); [|easy]. eapply tinv_step; eauto. Qed.
(** C47: in every history the timer sleeps exactly for the interval that is due. *)
Theorem C47_punctual : forall ls s, timer_run timer_new ls = Some s -> punctual (t_log s).
Proof. intros ls s E. apply (ti_p _ (tinv_run ls _ s tinv_new E)). Qed.
(** C47: that interval is positive, and at most the one asked for unless modify asked for another one; shots that take less than the interval begin
    one interval apart. *)
Theorem C47_interval : forall span ms r, 0 < asked r -> 0 <= span ->
  (0 < ms -> due (EDone span ms :: r) = ms) /\
  (ms <= 0 -> 0 < due (EDone span ms :: r) <= asked r /\ (span < asked r -> span + due (EDone span ms :: r) = asked r) /\ (asked r <= span -> due (EDone span ms :: r) = asked r)).
Proof. intros span ms r A S. cbn [due]. split; [intros M; destruct (Z.ltb_spec 0 ms); lia|]. intros M. destruct (Z.ltb_spec 0 ms); [lia|]. destruct (Z.ltb_spec span (asked r)); lia. Qed.
(** C47: once stop has been called no shot begins, until the timer is started again. *)
Theorem C47_no_late_shot : forall ls s, timer_run timer_new ls = Some s -> no_late_shot (t_log s).
Proof. intros ls s E. apply (ti_s _ (tinv_run ls _ s tinv_new E)). Qed.
(** C47: when stop has returned the thread has ended: no shot is in progress and the thread takes no further step, until the timer is started again. *)
Theorem C47_stopped : forall ls s, timer_run timer_new ls = Some s -> stopped (t_log s) = true ->
  (t_pc s = TNone \/ t_pc s = TEnd \/ t_pc s = TThrew) /\ (forall a b, timer_step s (LtThread a b) = None) /\ (forall a b c, timer_step s (LtTask a b c) = None).
Proof.
  intros ls s E H. destruct (tinv_run ls _ s tinv_new E) as [Io Il Ip Is Ia [Iu1 Iu2] Ie Ih]. destruct (Ih H) as [U S]. specialize (Iu1 U S). split; [easy|]. cbn [timer_step]. destruct Iu1 as [->|[->| ->]]; easy.
Qed.
(** C47: stop always comes to an end: from the moment it was called the thread needs at most five further actions, the end of the running task and of the running
    sleep among them, whether or not the notification reaches it. *)
Definition tleft (s : timer) : nat := match t_pc s with TTest => 1 | TEnter => 4 | TSleep _ => 3 | TCheck => 2 | TShot => 2 | _ => 0 end%nat.
Definition tmove (l : tlabel) : bool := match l with LtThread _ _ | LtTask _ _ _ => true | _ => false end.
Theorem C47_stop_ends : forall s l s', t_stop s = true -> timer_step s l = Some s' -> (forall iv, l <> LtStart iv) ->
  t_stop s' = true /\ (tleft s' + b2n (tmove l) <= tleft s)%nat /\ (tleft s <= 4)%nat.
Proof.
  intros s l s' S E H. unfold tleft. destruct l as [iv| | | |w t|span ms threw]; cbn [timer_step tmove b2n] in *.
  - now specialize (H iv).
  - destruct (t_user s); try discriminate. rewrite S in E. injection E as <-. split; [easy|]. destruct (t_pc s); cbn; lia.
  - destruct (t_user s); try discriminate. injection E as <-. cbn. destruct (t_pc s); split; easy || lia.
  - destruct (t_user s), (t_pc s); try discriminate; injection E as <-; cbn; split; easy || lia.
  - destruct (t_pc s); try discriminate; rewrite ?S in E; try (injection E as <-; cbn; rewrite ?S; split; easy || lia). destruct t; [|destruct (woken || w)%bool; [|discriminate]]; injection E as <-; cbn; split; easy || lia.
  - destruct (t_pc s); try discriminate. destruct threw; injection E as <-; cbn; split; easy || lia.
Qed.
Theorem C47_stop_returns : forall ls s, timer_run timer_new ls = Some s -> t_user s = UJoin -> tleft s = 0%nat -> exists s', timer_step s LtJoin = Some s' /\ stopped (t_log s') = true.
Proof.
  intros ls s E U L. destruct (tinv_run ls _ s tinv_new E) as [Io Il Ip Is Ia [Iu1 Iu2] Ie Ih]. destruct (Iu2 ltac:(now rewrite U)) as [_ N]. unfold tleft in L. cbn [timer_step]. rewrite U. destruct (t_pc s); try easy; eexists; split; reflexivity.
Qed.
(** C47: start on a timer that is running changes nothing. *)
Theorem C47_start_twice : forall s iv, t_user s = UOut -> t_stop s = false -> timer_step s (LtStart iv) = Some s.
Proof. intros s iv U S. cbn. now rewrite U, S. Qed.
Definition c47_ls : list tlabel :=
  [LtStart 100; LtThread false false; LtThread false false; LtThread false true; LtThread false false; LtTask 30 0 false;
   LtThread false false; LtThread false false; LtThread false true; LtThread false false; LtTask 130 40 false; LtThread false false; LtThread false false; LtStop; LtNotify; LtThread false false; LtThread false false; LtJoin].
Example C47_case : exists s, timer_run timer_new c47_ls = Some s /\
  t_log s = [EStopRet; EStopReq; ESleep 40; EDone 130 40; EShot; ESleep 70; EDone 30 0; EShot; ESleep 100; EStart 100] /\ stopped (t_log s) = true.
Proof. eexists. split; [vm_compute; reflexivity|]. easy. Qed.

(** C73: stop can take a whole interval: when the notification comes between the thread's test and its wait it is lost, and the thread sleeps the whole interval. *)
Theorem C73_refuted : forall iv, exists ls s, timer_run timer_new (ls ++ [LtStop; LtNotify]) = Some s /\
  timer_step s (LtThread false false) = Some (mkTimer true iv iv (TSleep false) UJoin (ESleep iv :: t_log s)) /\
  (forall s', timer_step s (LtThread false false) = Some s' -> timer_step s' (LtThread false false) = None /\ timer_step s' LtJoin = None).
Proof. intros iv. exists [LtStart iv; LtThread false false]. eexists. split; [vm_compute; reflexivity|]. split; [reflexivity|]. intros s' E. injection E as <-. easy. Qed.
(** C73 (the part that holds): if the thread was asleep when stop notified it, it wakes up without waiting for the interval and ends. *)
Theorem C73_partial : forall s w, t_user s = UNotify -> t_stop s = true -> t_pc s = TSleep w ->
  exists s', timer_run s [LtNotify; LtThread false false; LtThread false false; LtJoin] = Some s' /\ t_log s' = EStopRet :: t_log s.
Proof. intros [st o l pc u lg] w U S P. cbn in *. subst. eexists. split; reflexivity. Qed.
Example C73_case : exists s w, timer_run timer_new [LtStart 5; LtThread false false; LtThread false false; LtStop] = Some s /\ t_user s = UNotify /\ t_stop s = true /\ t_pc s = TSleep w.
Proof. eexists. exists false. split; [vm_compute; reflexivity|]. easy. Qed.

(** C74: a daemon whose task throws is not executed any more, without any report; starting it again has no effect either, as long as it has not been stopped. *)
Fixpoint shots (h : list tev) : nat := match h with [] => 0 | EShot :: r => S (shots r) | _ :: r => shots r end.
Theorem C74_refuted : forall s span ms s', timer_step s (LtTask span ms true) = Some s' -> t_user s' = UOut -> t_stop s' = false ->
  forall ls s'', timer_run s' ls = Some s'' -> ~ In LtStop ls -> shots (t_log s'') = shots (t_log s) /\ t_log s'' = t_log s'.
Proof.
  intros s span ms s' E U S. cbn [timer_step] in E. destruct (t_pc s) eqn:P; try discriminate. injection E as <-. cbn in U, S.
  assert (G : forall ls z z', t_pc z = TThrew -> t_user z = UOut -> t_stop z = false -> timer_run z ls = Some z' -> ~ In LtStop ls -> t_log z' = t_log z).
  { induction ls as [|l r IH]; intros z z' Pz Uz Sz Ez Hn; cbn [timer_run] in Ez; [now injection Ez as <-|]. destruct (timer_step z l) as [z1|] eqn:E1; [|discriminate].
    destruct l as [iv| | | |w t|sp m th]; cbn [timer_step] in E1; rewrite ?Pz, ?Uz, ?Sz in E1; try discriminate; [|exfalso; apply Hn; now left].
    injection E1 as <-. apply (IH z z'); try easy. intros H. apply Hn. now right. }
  intros ls s'' R Hn. match type of R with timer_run ?z _ = _ => pose proof (G ls z s'' eq_refl U S R Hn) as L end. cbn in L. rewrite L. easy.
Qed.
Example C74_case : exists s s', timer_run timer_new [LtStart 5; LtThread false false; LtThread false false; LtThread false true; LtThread false false] = Some s /\
  timer_step s (LtTask 1 0 true) = Some s' /\ t_user s' = UOut /\ t_stop s' = false /\ timer_run s' [LtStart 7; LtStart 5] = Some s'.
Proof. eexists. eexists. split; [vm_compute; reflexivity|]. split; [reflexivity|]. easy. Qed.
(** C74 (the part that holds): a started timer whose tasks have not thrown comes to its next shot by at most five further actions of its own, if the sleep is not
    interrupted and nobody stops it. *)
Definition throws (l : tlabel) : bool := match l with LtTask _ _ true => true | _ => false end.
Theorem C74_partial : forall ls s, timer_run timer_new ls = Some s -> (forall l, In l ls -> throws l = false) -> t_stop s = false ->
  exists ms s', timer_run s ms = Some s' /\ (length ms <= 5)%nat /\ (forall l, In l ms -> tmove l = true /\ throws l = false) /\ shots (t_log s') = S (shots (t_log s)).
Proof.
  intros ls s E H S. assert (I := tinv_run ls _ s tinv_new E). assert (NT : t_pc s <> TThrew).
  { assert (G : forall ls z z', t_pc z <> TThrew -> timer_run z ls = Some z' -> (forall l, In l ls -> throws l = false) -> t_pc z' <> TThrew).
    { clear. induction ls as [|l r IH]; intros z z' Pz Ez Hn; cbn [timer_run] in Ez; [now injection Ez as <-|]. destruct (timer_step z l) as [z1|] eqn:E1; [|discriminate].
      apply (IH z1 z'); [|easy|intros x Hx; apply Hn; now right]. specialize (Hn l (or_introl eq_refl)). clear IH Ez.
      destruct l as [iv| | | |w t|sp m th]; cbn [timer_step throws] in *; repeat match type of E1 with context [match ?x with _ => _ end] => destruct x; try discriminate end; injection E1 as <-; cbn; try easy. }
    eapply G; [|exact E|exact H]. easy. }
  pose proof (ti_e _ I) as Ie. destruct s as [st o lf pc u lg]. cbn in S, NT, Ie. subst st.
  destruct pc as [| | |w| | | |]; [specialize (Ie (or_introl eq_refl)); discriminate| | | | | |specialize (Ie (or_intror eq_refl)); discriminate|easy].
  - exists [LtThread false false; LtThread false false; LtThread false true; LtThread false false]. eexists. split; [reflexivity|]. split; [cbn; lia|]. split; [|reflexivity]. intros l Hl. cbn in Hl. repeat destruct Hl as [<-|Hl]; easy.
  - exists [LtThread false false; LtThread false true; LtThread false false]. eexists. split; [reflexivity|]. split; [cbn; lia|]. split; [|reflexivity]. intros l Hl. cbn in Hl. repeat destruct Hl as [<-|Hl]; easy.
  - exists [LtThread false true; LtThread false false]. eexists. split; [reflexivity|]. split; [cbn; lia|]. split; [|reflexivity]. intros l Hl. cbn in Hl. repeat destruct Hl as [<-|Hl]; easy.
  - exists [LtThread false false]. eexists. split; [reflexivity|]. split; [cbn; lia|]. split; [|reflexivity]. intros l Hl. cbn in Hl. repeat destruct Hl as [<-|Hl]; easy.
  - exists [LtTask 0 0 false; LtThread false false; LtThread false false; LtThread false true; LtThread false false]. eexists. split; [reflexivity|]. split; [cbn; lia|]. split; [|reflexivity]. intros l Hl. cbn in Hl. repeat destruct Hl as [<-|Hl]; easy.
Qed.
Print Assumptions C47_punctual. Print Assumptions C47_interval. Print Assumptions C47_no_late_shot. Print Assumptions C47_stopped. Print Assumptions C47_stop_ends. Print Assumptions C47_stop_returns.
Print Assumptions C73_refuted. Print Assumptions C73_partial. Print Assumptions C74_refuted. Print Assumptions C74_partial.
