(** Properties C26 (typed map of parameters) and C60 (keys used by an element). *)
From Verif Require Import ParamProofs.
From Coq Require Import Lia.
Local Open Scope nat_scope.
Local Open Scope list_scope.

(** C26. After any history: a get answers the object of a live parameter exactly when key and type agree, null otherwise. *)
Theorem C26_get : forall h e k t,
  (forall n, p_answer h (PGet e k t) = AObj (Some n) <-> alive h k t n) /\
  (p_answer h (PGet e k t) = AObj None <-> forall n, ~ alive h k t n).
Proof.
  intros h e k t. unfold p_answer. cbn [p_step]. unfold w_get, pm_get. pose proof (pinv_all h) as P.
  destruct (pfind k (ps_map (p_after h))) as [[t' n' nm]|] eqn:E; cbn [p_type p_obj].
  - destruct (Nat.eqb_spec t t') as [->|Hne]; cbn [snd].
    + split.
      * intros n. rewrite (pi_alive _ _ P), E. split; [intros H; injection H as ->; now exists nm|intros [nm' H]; now injection H as -> ->].
      * split; [discriminate|]. intros H. exfalso. apply (H n'). apply (pi_alive _ _ P). now exists nm.
    + assert (H : forall n, ~ alive h k t n) by (intros n Hn; apply (pi_alive _ _ P) in Hn; destruct Hn as [nm' Hn]; congruence).
      split; [|easy]. intros n. split; [discriminate|intros Hn; now apply H in Hn].
  - assert (H : forall n, ~ alive h k t n) by (intros n Hn; apply (pi_alive _ _ P) in Hn; destruct Hn as [nm' Hn]; congruence).
    cbn [snd]. split; [|easy]. intros n. split; [discriminate|intros Hn; now apply H in Hn].
Qed.
(** Creating: OK exactly when the key is free or the live parameter has the same type; then a parameter of that type is alive,
    the old object if there was one. A refused create changes nothing. *)
Theorem C26_create : forall h k t,
  (p_answer h (PCreate k t) = AOk <-> free h k \/ exists n, alive h k t n) /\
  (p_answer h (PCreate k t) = AErr <-> exists t' n, t' <> t /\ alive h k t' n) /\
  (forall k' t' n, alive (h ++ [PCreate k t]) k' t' n <-> alive h k' t' n \/ (k' = k /\ t' = t /\ free h k /\ n = length h)).
Proof.
  intros h k t. unfold p_answer. cbn [p_step]. unfold pm_create. pose proof (pinv_all h) as P. split; [|split].
  - rewrite (pi_free _ _ P). destruct (pfind k (ps_map (p_after h))) as [[t' n' nm]|] eqn:E; cbn [snd p_type].
    + destruct (Nat.eqb_spec t' t) as [->|Hne].
      * split; [|easy]. intros _. right. exists n'. apply (pi_alive _ _ P). now exists nm.
      * split; [discriminate|]. intros [H|[n H]]; [discriminate|]. apply (pi_alive _ _ P) in H. destruct H as [nm' H]. congruence.
    + split; [now left|easy].
  - destruct (pfind k (ps_map (p_after h))) as [[t' n' nm]|] eqn:E; cbn [snd p_type].
    + destruct (Nat.eqb_spec t' t) as [->|Hne].
      * split; [discriminate|]. intros [t' [n [Hn H]]]. apply (pi_alive _ _ P) in H. destruct H as [nm' H]. congruence.
      * split; [|easy]. intros _. exists t', n'. split; [easy|]. apply (pi_alive _ _ P). now exists nm.
    + split; [discriminate|]. intros [t' [n [Hn H]]]. apply (pi_alive _ _ P) in H. destruct H as [nm' H]. congruence.
  - intros k' t' n. rewrite alive_snoc. split.
    + intros [[H _]|[H [Hf ->]]]; [now left|]. right. destruct H as [H|H]; inversion H; subst. easy.
    + intros [H|[-> [-> [Hf ->]]]]; [left; split; [easy|intros [Hx|Hx]; discriminate]|right; split; [now left|easy]].
Qed.
(** Removing: OK exactly when the key is in use; the key is then free, and nothing else changes. *)
Theorem C26_remove : forall h k,
  (p_answer h (PRemove k) = AOk <-> ~ free h k) /\ (p_answer h (PRemove k) = AErr <-> free h k) /\
  free (h ++ [PRemove k]) k /\ (~ free h k -> exists t n, alive h k t n) /\
  (forall k' t n, alive (h ++ [PRemove k]) k' t n <-> alive h k' t n /\ k' <> k).
Proof.
  intros h k. unfold p_answer. cbn [p_step]. unfold pm_remove. pose proof (pinv_all h) as P. split; [|split; [|split; [|split]]].
  - rewrite (pi_free _ _ P). destruct (pfind k (ps_map (p_after h))); cbn [snd]; split; try easy; intros H; now destruct H.
  - rewrite (pi_free _ _ P). destruct (pfind k (ps_map (p_after h))); cbn [snd]; split; easy.
  - apply free_snoc. left. now left.
  - rewrite (pi_free _ _ P). destruct (pfind k (ps_map (p_after h))) as [[t n nm]|] eqn:E; [|easy]. intros _. exists t, n. apply (pi_alive _ _ P). now exists nm.
  - intros k' t n. rewrite alive_snoc. split.
    + intros [[H Hn]|[[H|H] _]]; try discriminate. split; [easy|]. intros ->. apply Hn. now left.
    + intros [H Hn]. left. split; [easy|]. intros [Hx|Hx]; congruence.
Qed.
(** getGParamKeys lists each live key once; the python test for presence agrees. *)
Theorem C26_keys : forall h, exists l, p_answer h PKeys = AKeys l /\ NoDup l /\ (forall k, In k l <-> ~ free h k) /\
  (forall k, p_answer h (PHas k) = ABool true <-> ~ free h k).
Proof.
  intros h. pose proof (pinv_all h) as P. exists (map fst (ps_map (p_after h))). split; [easy|]. split; [apply P|].
  assert (H : forall k, pfind k (ps_map (p_after h)) = None \/ exists p, pfind k (ps_map (p_after h)) = Some p).
  { intros k. destruct (pfind k _) as [p|]; [right; now exists p|now left]. }
  split.
  - intros k. rewrite (pi_free _ _ P), pfind_none. destruct (in_dec_nat k (map fst (ps_map (p_after h)))); tauto.
  - intros k. unfold p_answer. cbn [p_step snd]. rewrite (pi_free _ _ P). destruct (H k) as [E|[p E]]; rewrite E; split; easy.
Qed.
(** Objects: an object is deleted at most once, never while alive, and always once it stops being alive (shared or local). *)
Theorem C26_objects : forall h,
  NoDup (ps_freed (p_after h)) /\
  (forall k t n, alive h k t n -> ~ In n (ps_freed (p_after h))) /\
  (forall e k t n, local h e k t n -> ~ In n (ps_freed (p_after h))) /\
  (forall a b k t n, h = a ++ b -> alive a k t n -> ~ alive h k t n -> In n (ps_freed (p_after h))) /\
  (forall a b e k t n, h = a ++ b -> local a e k t n -> ~ local h e k t n -> In n (ps_freed (p_after h))).
Proof.
  intros h. pose proof (dinv_all h) as D. split; [apply D|]. split; [apply D|]. split; [apply D|]. split.
  - intros a b k t n E Ha Hn. destruct (di_gone _ _ D a b k t n E Ha); [contradiction|easy].
  - intros a b e k t n E Ha Hn. destruct (di_lgone _ _ D a b e k t n E Ha); [contradiction|easy].
Qed.
(** Local parameters: getEParam answers the object of the last addEParam accepted for that key on that element, when the type
    agrees; addEParam throws exactly once the element is initialised. *)
Theorem C26_local : forall h e k t,
  (forall n, p_answer h (PGetE e k t) = AObj (Some n) <-> local h e k t n) /\
  (p_answer h (PGetE e k t) = AObj None <-> forall n, ~ local h e k t n) /\
  (p_answer h (PAddE e k t) = AThrow <-> In (PInit e) h) /\ (p_answer h (PAddE e k t) = AOk <-> ~ In (PInit e) h).
Proof.
  intros h e k t. pose proof (linv_all h) as L. unfold p_answer. cbn [p_step snd].
  assert (Hg : (forall n, e_get e k t (p_after h) = Some n <-> local h e k t n)).
  { intros n. rewrite (lv_local _ _ L). unfold e_get. destruct (pfind k (ps_local (p_after h) e)) as [[t' n' nm]|]; cbn [p_type p_obj].
    - destruct (Nat.eqb_spec t t') as [->|Hne]; split; try discriminate.
      + intros H. injection H as ->. now exists nm.
      + intros [nm' H]. congruence.
      + intros [nm' H]. congruence.
    - split; [discriminate|]. intros [nm' H]. discriminate. }
  split; [|split; [|split]].
  - intros n. rewrite <- Hg. split; congruence.
  - split.
    + intros H n Hn. apply Hg in Hn. congruence.
    + intros H. destruct (e_get e k t (p_after h)) as [n|] eqn:E; [|easy]. exfalso. apply (H n). now apply Hg.
  - unfold e_add. pose proof (lv_init _ _ L e) as Hi. unfold early in Hi. destruct (ps_init (p_after h) e); cbn [snd]; split; try easy.
    + intros _. assert (Hd : forall x y : pop, {x = y} + {x <> y}) by (repeat decide equality).
      destruct (in_dec Hd (PInit e) h); [easy|]. apply Hi in n. discriminate.
    + intros H. exfalso. now apply (proj1 Hi eq_refl).
  - unfold e_add. pose proof (lv_init _ _ L e) as Hi. unfold early in Hi. destruct (ps_init (p_after h) e); cbn [snd]; split; try easy.
    + intros H. apply Hi in H. discriminate.
    + intros _. now apply Hi.
Qed.
Example C26_case :
  let h := [PCreate 1 7; PCreate 2 7; PCreate 1 8; PRemove 1; PCreate 1 8; PAddE 4 1 3; PAddE 4 1 5] in
  p_answer h (PGet 9 1 8) = AObj (Some 4) /\ p_answer h (PGet 9 1 7) = AObj None /\ p_answer h (PGet 9 2 7) = AObj (Some 1) /\
  p_answer h (PCreate 2 8) = AErr /\ p_answer h (PRemove 3) = AErr /\ p_answer h (PGetE 4 1 5) = AObj (Some 6) /\
  ps_freed (p_after h) = [5; 0] /\ alive h 1 8 4.
Proof.
  cbv zeta. do 7 (split; [reflexivity|]).
  exists [PCreate 1 7; PCreate 2 7; PCreate 1 8; PRemove 1], (PCreate 1 8), [PAddE 4 1 3; PAddE 4 1 5].
  split; [reflexivity|]. split; [now left|]. split; [|split; [reflexivity|]].
  - apply (pi_free _ _ (pinv_all _)). reflexivity.
  - intros e [<-|[<-|[]]] [H|H]; discriminate.
Qed.
Print Assumptions C26_get. Print Assumptions C26_create. Print Assumptions C26_remove. Print Assumptions C26_keys.
Print Assumptions C26_objects. Print Assumptions C26_local.

(** C60, exact: the keys used by an element in its round are reported, unless one of the objects it got is gone; then the call
    reads a deleted object. *)
Theorem C60_concerned_partial : forall h e,
  ((exists n, got h e n /\ forall k t, ~ alive h k t n) <-> p_answer h (PConcerned e) = AUB) /\
  ((forall n, got h e n -> exists k t, alive h k t n) -> (forall k t, ~ In (PCreatePy k t) h) ->
     exists l, p_answer h (PConcerned e) = ANames (map Some l) /\ NoDup l /\
       forall k, In k l <-> exists t n, got h e n /\ alive h k t n).
Proof.
  intros h e. pose proof (cinv_all h) as C. pose proof (dinv_all h) as D. unfold p_answer. cbn [p_step snd]. unfold w_concerned.
  assert (Hfr : forall n, got h e n -> ((forall k t, ~ alive h k t n) <-> In n (ps_freed (p_after h)))).
  { intros n Hg. split.
    - intros Hn. destruct Hg as [a [k [t [b [E [Ha _]]]]]]. destruct (di_gone _ _ D a (PGet e k t :: b) k t n E Ha) as [H|H]; [now apply Hn in H|easy].
    - intros Hf k t Ha. now apply (di_alive _ _ D k t n). }
  split.
  - split.
    + intros [n [Hg Hn]]. apply (Hfr n Hg) in Hn. assert (existsb (fun p => memb (p_obj p) (ps_freed (p_after h))) (ps_conc (p_after h) e) = true) as ->; [|easy].
      apply (ci_got _ _ C) in Hg. apply in_map_iff in Hg. destruct Hg as [p [<- Hp]]. apply existsb_exists. exists p. split; [easy|]. now apply memb_in.
    + destruct (existsb _ _) eqn:E; [|discriminate]. intros _. apply existsb_exists in E. destruct E as [p [Hp Hf]]. apply memb_in in Hf.
      assert (Hg : got h e (p_obj p)) by (apply (ci_got _ _ C); now apply in_map). exists (p_obj p). split; [easy|]. now apply Hfr.
  - intros Hal Hpy.
    assert (existsb (fun p => memb (p_obj p) (ps_freed (p_after h))) (ps_conc (p_after h) e) = false) as ->.
    { destruct (existsb _ _) eqn:E; [|easy]. exfalso. apply existsb_exists in E. destruct E as [p [Hp Hf]]. apply memb_in in Hf.
      assert (Hg : got h e (p_obj p)) by (apply (ci_got _ _ C); now apply in_map). destruct (Hal _ Hg) as [k [t Ha]].
      now apply (di_alive _ _ D k t (p_obj p)). }
    assert (Hname : forall p, In p (ps_conc (p_after h) e) -> exists k, p_name p = Some k /\ nth_error h (p_obj p) = Some (PCreate k (p_type p))).
    { intros p Hp. destruct (ci_name _ _ C e p Hp) as [o [E [[k [-> Hk]]|[k [-> Hk]]]]]; [now exists k|]. exfalso. apply (Hpy k (p_type p)). now apply nth_error_In in E. }
    pose proof (ci_nodup _ _ C e) as Hnd. pose proof (ci_got _ _ C e) as Hgot.
    set (l := map (fun p => match p_name p with Some k => k | None => 0 end) (ps_conc (p_after h) e)).
    assert (Hin : forall k, In k l <-> exists t n, got h e n /\ alive h k t n).
    { intros k. unfold l. rewrite in_map_iff. split.
      - intros [p [Ek Hp]]. destruct (Hname p Hp) as [k' [En Eo]]. rewrite En in Ek. subst k'.
        assert (Hg : got h e (p_obj p)) by (apply Hgot; now apply in_map). destruct (Hal _ Hg) as [k' [t Ha]].
        exists t, (p_obj p). split; [easy|]. destruct (alive_nth _ _ _ _ Ha) as [o [Eo' Ho]]. rewrite Eo in Eo'. injection Eo' as <-. destruct Ho as [Ho|Ho]; inversion Ho; subst. easy.
      - intros [t [n [Hg Ha]]]. apply Hgot in Hg. apply in_map_iff in Hg. destruct Hg as [p [<- Hp]]. exists p. split; [|easy].
        destruct (Hname p Hp) as [k' [En Eo]]. rewrite En. destruct (alive_nth _ _ _ _ Ha) as [o [Eo' Ho]]. rewrite Eo in Eo'. injection Eo' as <-. destruct Ho as [Ho|Ho]; inversion Ho; subst. easy. }
    exists l. split; [|split; [|exact Hin]].
    + f_equal. unfold l. rewrite map_map. apply map_ext_in. intros p Hp. destruct (Hname p Hp) as [k [-> _]]. easy.
    + (* equal names would be one object *)
      assert (Hinj : forall p q, In p (ps_conc (p_after h) e) -> In q (ps_conc (p_after h) e) -> p_name p = p_name q -> p_obj p = p_obj q).
      { intros p q Hp Hq E. assert (Gp : got h e (p_obj p)) by (apply Hgot; now apply in_map). assert (Gq : got h e (p_obj q)) by (apply Hgot; now apply in_map).
        destruct (Hal _ Gp) as [kp [tp Ap]]. destruct (Hal _ Gq) as [kq [tq Aq]].
        destruct (Hname p Hp) as [k1 [N1 O1]]. destruct (Hname q Hq) as [k2 [N2 O2]].
        destruct (alive_nth _ _ _ _ Ap) as [o1 [E1 H1]]. rewrite O1 in E1. injection E1 as <-.
        destruct (alive_nth _ _ _ _ Aq) as [o2 [E2 H2]]. rewrite O2 in E2. injection E2 as <-.
        assert (k1 = k2) as -> by congruence. destruct H1 as [H1|H1]; [|discriminate]. destruct H2 as [H2|H2]; [|discriminate].
        injection H1 as <- <-. injection H2 as <- <-.
        apply (pi_alive _ _ (pinv_all h)) in Ap. apply (pi_alive _ _ (pinv_all h)) in Aq. destruct Ap as [n1 Ap]. destruct Aq as [n2 Aq]. congruence. }
      unfold l. clear - Hnd Hinj Hname. induction (ps_conc (p_after h) e) as [|p m IH]; cbn; [constructor|]. cbn in Hnd. inversion Hnd; subst. constructor.
      * intros Hi. apply in_map_iff in Hi. destruct Hi as [q [Eq Hq]]. destruct (Hname p (or_introl eq_refl)) as [k1 [N1 _]]. destruct (Hname q (or_intror Hq)) as [k2 [N2 _]].
        apply H1. rewrite (Hinj p q); [now apply in_map|now left|now right|]. rewrite N1, N2 in *. congruence.
      * apply IH.
        -- intros q Hq. apply Hname. now right.
        -- easy.
        -- intros q r Hq Hr. apply Hinj; now right.
Qed.
(** C60, refuted: removing a parameter an element has used in its round makes its getConcernedGParamKeys read freed memory. *)
Theorem C60_concerned_refuted : exists h e, p_answer h (PConcerned e) = AUB /\
  h = [PCreate 1 7; PRound e; PGet e 1 7; PRemove 1].
Proof. exists [PCreate 1 7; PRound 0; PGet 0 1 7; PRemove 1], 0. split; reflexivity. Qed.
Example C60_case : p_answer [PCreate 1 7; PCreate 2 7; PGet 0 1 7; PRound 0; PGet 0 2 7; PGet 0 2 8; PGet 1 1 7] (PConcerned 0) = ANames [Some 2].
Proof. reflexivity. Qed.
Print Assumptions C60_concerned_partial.

(** The python form of create never refuses: it keeps a live parameter, whatever its type, and otherwise makes one. clear succeeds and frees every key. *)
Theorem C26_python_clear : forall h,
  (forall k t, p_answer h (PCreatePy k t) = AOk /\
     forall k' t' n, alive (h ++ [PCreatePy k t]) k' t' n <-> alive h k' t' n \/ (k' = k /\ t' = t /\ free h k /\ n = length h)) /\
  p_answer h PClear = AOk /\ (forall k, free (h ++ [PClear]) k) /\ (forall k t n, ~ alive (h ++ [PClear]) k t n).
Proof.
  intros h. split; [|split; [reflexivity|split]].
  - intros k t. split.
    + unfold p_answer. cbn [p_step]. unfold pm_create_py. destruct (pfind k (ps_map (p_after h))); reflexivity.
    + intros k' t' n. rewrite alive_snoc. split.
      * intros [[H _]|[H [Hf ->]]]; [now left|]. right. destruct H as [H|H]; inversion H; subst. easy.
      * intros [H|[-> [-> [Hf ->]]]]; [left; split; [easy|intros [Hx|Hx]; discriminate]|right; split; [now right|easy]].
  - intros k. apply free_snoc. left. now right.
  - intros k t n. rewrite alive_snoc. intros [[_ H]|[[H|H] _]]; try discriminate. apply H. now right.
Qed.
Print Assumptions C26_python_clear.
Example C26_python_clear_case : p_answer [PCreate 1 7; PCreatePy 1 8] (PGet 0 1 7) = AObj (Some 0) /\ p_answer [PCreate 1 7; PCreatePy 1 8; PClear; PCreatePy 1 8] (PGet 0 1 8) = AObj (Some 3).
Proof. split; reflexivity. Qed.
