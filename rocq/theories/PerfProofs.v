(** The invariant of a run made by perf. *)
From Verif Require Import GraphModel GraphSpec OptModel OptProofs PerfModel PerfSpec.
From Coq Require Import Lia.
Local Open Scope nat_scope.
Local Open Scope list_scope.

(** What the perf aspect of one element makes of the events of that element. *)
Definition p1 (t0 : Z) (x : Z * pinfo) (v : pev) : Z * pinfo :=
  let (cur, i) := x in
  match v with
  | PBegin now => (now, if Z.eqb 0 (i_first i) then mkInfo (i_loop i) (now - t0) (i_last i) (i_accu i) (i_long i) else i)
  | PFinish now => (cur, mkInfo (S (i_loop i)) (i_first i) (now - t0) (i_accu i + (now - cur))%Z (i_long i))
  | PAdd _ => x
  end.
Definition replay (t0 : Z) (l : list pev) : Z * pinfo := fold_left (p1 t0) l (0%Z, info0).
Definition added (l : list pev) : list asp := flat_map (fun v => match v with PAdd n => [AUser n] | _ => [] end) l.

Section J.
Variable t0 : Z.
Variable repo : list nat.
Variable us : nat -> list asp.
Variable ref : nat -> nat.
Hypothesis Hus : forall e a, In a (us e) -> exists n, a = AUser n.
Hypothesis Href : forall e f, In e repo -> In f repo -> ref e = ref f -> e = f.

Record J (w : nat -> Z * pinfo) (ad : nat -> list asp) (s : pst) : Prop := {
  j_in : forall e, In e repo -> p_asp s e = us e ++ APerf t0 (fst (w e)) (ref e) :: ad e /\ p_info s e = Some (ref e) /\ p_heap s (ref e) = Some (snd (w e));
  j_out : forall e, ~ In e repo -> p_asp s e = us e ++ ad e;
  j_ad : forall e a, In a (ad e) -> exists n, a = AUser n }.

Lemma each_users f : (forall h n, f h (AUser n) = Some (h, AUser n)) -> forall l h, (forall a, In a l -> exists n, a = AUser n) -> each f h l = Some (h, l).
Proof.
  intros Hf l. induction l as [|a l IH]; intros h H; [reflexivity|]. destruct (H a (or_introl eq_refl)) as [n ->].
  cbn [each]. rewrite Hf, (IH h); [reflexivity|]. intros b Hb. apply H. right; exact Hb.
Qed.
Lemma each_app f : forall l1 h l2 h1 r1, each f h l1 = Some (h1, r1) ->
  each f h (l1 ++ l2) = match each f h1 l2 with None => None | Some (h2, r2) => Some (h2, r1 ++ r2) end.
Proof.
  induction l1 as [|a l IH]; intros h l2 h1 r1 E.
  - injection E as <- <-. cbn [app]. destruct (each f h l2) as [[? ?]|]; reflexivity.
  - cbn [each app] in *. destruct (f h a) as [[h' a']|]; [|discriminate]. destruct (each f h' l) as [[h'' r']|] eqn:Q; [|discriminate]. injection E as <- <-.
    rewrite (IH h' l2 h'' r' Q). destruct (each f h'' l2) as [[? ?]|]; reflexivity.
Qed.
Lemma each_mid f (Hf : forall h n, f h (AUser n) = Some (h, AUser n)) e ad h a h' a' : (forall b, In b ad -> exists n, b = AUser n) -> f h a = Some (h', a') ->
  each f h (us e ++ a :: ad) = Some (h', us e ++ a' :: ad).
Proof.
  intros Had E. rewrite (each_app f (us e) h (a :: ad) h (us e)) by (apply each_users; [exact Hf|apply Hus]).
  cbn [each]. rewrite E, (each_users f Hf ad h' Had). reflexivity.
Qed.

Lemma p_step_J w ad s e v : J w ad s -> exists s', p_step s (e, v) = Some s' /\ J (upd w e (p1 t0 (w e) v)) (upd ad e (ad e ++ added [v])) s'.
Proof.
  intros H. assert (Hc : {In e repo} + {~ In e repo}) by (apply in_dec; decide equality).
  assert (UA : forall k l, (forall b, In b (upd ad e (ad e ++ []) k) -> exists n, b = AUser n) /\ upd (p_asp s) e l e = l).
  { intros k l. unfold upd. rewrite Nat.eqb_refl. split; [|reflexivity]. destruct (Nat.eqb k e); [rewrite app_nil_r|]; apply (j_ad _ _ _ H). }
  destruct v as [now|now|n]; cbn [p_step].
  - destruct Hc as [Hi|Hn].
    + destruct (j_in _ _ _ H e Hi) as [A [B C]]. rewrite A. destruct (w e) as [cur i] eqn:W. cbn [fst snd] in *.
      erewrite (each_mid (begin_one now) (fun h n => eq_refl)) by (try apply (j_ad _ _ _ H); cbn [begin_one]; rewrite C; reflexivity).
      eexists; split; [reflexivity|]. constructor; cbn [p_asp p_info p_heap].
      * intros k Hk. unfold upd. destruct (Nat.eqb_spec k e) as [->|Hke].
        -- rewrite app_nil_r. cbn [p1 fst snd]. split; [reflexivity|]. split; [exact B|]. destruct (Z.eqb 0 (i_first i)); [rewrite Nat.eqb_refl; reflexivity|exact C].
        -- destruct (j_in _ _ _ H k Hk) as [A' [B' C']]. split; [exact A'|]. split; [exact B'|].
           destruct (Z.eqb 0 (i_first i)); [|exact C']. destruct (Nat.eqb_spec (ref k) (ref e)) as [E|_]; [destruct (Hke (Href k e Hk Hi E))|exact C'].
      * intros k Hk. unfold upd. destruct (Nat.eqb_spec k e) as [->|Hke]; [contradiction|]. apply (j_out _ _ _ H k Hk).
      * intros k. apply (UA k []).
    + rewrite (j_out _ _ _ H e Hn). rewrite (each_users (begin_one now) (fun h n => eq_refl)).
      2: { intros a Ha. apply in_app_or in Ha. destruct Ha as [Ha|Ha]; [exact (Hus e a Ha)|exact (j_ad _ _ _ H e a Ha)]. }
      eexists; split; [reflexivity|]. constructor; cbn [p_asp p_info p_heap].
      * intros k Hk. unfold upd. destruct (Nat.eqb_spec k e) as [->|Hke]; [contradiction|]. apply (j_in _ _ _ H k Hk).
      * intros k Hk. unfold upd. destruct (Nat.eqb_spec k e) as [->|Hke]; [cbn [added flat_map]; rewrite app_nil_r; reflexivity|]. apply (j_out _ _ _ H k Hk).
      * intros k. apply (UA k []).
  - destruct Hc as [Hi|Hn].
    + destruct (j_in _ _ _ H e Hi) as [A [B C]]. rewrite A. destruct (w e) as [cur i] eqn:W. cbn [fst snd] in *.
      erewrite (each_mid (finish_one now) (fun h n => eq_refl)) by (try apply (j_ad _ _ _ H); cbn [finish_one]; rewrite C; reflexivity).
      eexists; split; [reflexivity|]. constructor; cbn [p_asp p_info p_heap].
      * intros k Hk. unfold upd. destruct (Nat.eqb_spec k e) as [->|Hke].
        -- rewrite app_nil_r. cbn [p1 fst snd]. split; [reflexivity|]. split; [exact B|]. rewrite Nat.eqb_refl; reflexivity.
        -- destruct (j_in _ _ _ H k Hk) as [A' [B' C']]. split; [exact A'|]. split; [exact B'|].
           destruct (Nat.eqb_spec (ref k) (ref e)) as [E|_]; [destruct (Hke (Href k e Hk Hi E))|exact C'].
      * intros k Hk. unfold upd. destruct (Nat.eqb_spec k e) as [->|Hke]; [contradiction|]. apply (j_out _ _ _ H k Hk).
      * intros k. apply (UA k []).
    + rewrite (j_out _ _ _ H e Hn). rewrite (each_users (finish_one now) (fun h n => eq_refl)).
      2: { intros a Ha. apply in_app_or in Ha. destruct Ha as [Ha|Ha]; [exact (Hus e a Ha)|exact (j_ad _ _ _ H e a Ha)]. }
      eexists; split; [reflexivity|]. constructor; cbn [p_asp p_info p_heap].
      * intros k Hk. unfold upd. destruct (Nat.eqb_spec k e) as [->|Hke]; [contradiction|]. apply (j_in _ _ _ H k Hk).
      * intros k Hk. unfold upd. destruct (Nat.eqb_spec k e) as [->|Hke]; [cbn [added flat_map]; rewrite app_nil_r; reflexivity|]. apply (j_out _ _ _ H k Hk).
      * intros k. apply (UA k []).
  - eexists; split; [reflexivity|]. constructor; cbn [p_asp p_info p_heap added flat_map app].
    + intros k Hk. unfold upd. destruct (Nat.eqb_spec k e) as [->|Hke].
      * destruct (j_in _ _ _ H e Hk) as [A [B C]]. rewrite A, <- app_assoc. destruct (w e) as [cur i]. cbn [p1 fst snd app] in *. auto.
      * apply (j_in _ _ _ H k Hk).
    + intros k Hk. unfold upd. destruct (Nat.eqb_spec k e) as [->|Hke]; [rewrite (j_out _ _ _ H e Hk), <- app_assoc; reflexivity|apply (j_out _ _ _ H k Hk)].
    + intros k b. unfold upd. destruct (Nat.eqb_spec k e) as [->|Hke]; [|apply (j_ad _ _ _ H)]. intros Hb. apply in_app_or in Hb. destruct Hb as [Hb|[<-|[]]]; [exact (j_ad _ _ _ H e b Hb)|eauto].
Qed.

Lemma J_ext w ad w' ad' s : (forall e, w' e = w e) -> (forall e, ad' e = ad e) -> J w ad s -> J w' ad' s.
Proof.
  intros E1 E2 [H1 H2 H3]. constructor.
  - intros e. rewrite E1, E2. apply H1.
  - intros e. rewrite E2. apply H2.
  - intros e a. rewrite E2. apply H3.
Qed.

Lemma p_run_J : forall evs w ad s, J w ad s -> exists s', p_run s evs = Some s' /\
  J (fun e => fold_left (p1 t0) (of_el e evs) (w e)) (fun e => ad e ++ added (of_el e evs)) s'.
Proof.
  induction evs as [|[e v] evs IH]; intros w ad s H.
  - exists s. split; [reflexivity|]. eapply J_ext; [..|exact H]; intros e; cbn; [reflexivity|rewrite app_nil_r; reflexivity].
  - destruct (p_step_J w ad s e v H) as [s1 [E1 H1]]. destruct (IH _ _ _ H1) as [s2 [E2 H2]].
    exists s2. cbn [p_run]. rewrite E1. split; [exact E2|]. eapply J_ext; [..|exact H2]; intros k.
    + unfold of_el. cbn [filter fst]. unfold upd. rewrite (Nat.eqb_sym e k). destruct (Nat.eqb_spec k e) as [->|Hk]; reflexivity.
    + unfold of_el. cbn [filter fst]. unfold upd. rewrite (Nat.eqb_sym e k). destruct (Nat.eqb_spec k e) as [->|Hk]; [|reflexivity].
      rewrite <- app_assoc. f_equal. cbn [map snd]. unfold added. cbn [flat_map]. rewrite app_nil_r. reflexivity.
Qed.
End J.

(** Injection. *)
Lemma inject_spec t0 : forall repo s, NoDup repo -> exists ref, (forall e, In e repo -> p_next s <= ref e < p_next (inject t0 s repo)) /\
  (forall e f, In e repo -> In f repo -> ref e = ref f -> e = f) /\ p_next s <= p_next (inject t0 s repo) /\
  (forall e, In e repo -> p_asp (inject t0 s repo) e = p_asp s e ++ [APerf t0 0 (ref e)] /\ p_info (inject t0 s repo) e = Some (ref e) /\ p_heap (inject t0 s repo) (ref e) = Some info0) /\
  (forall e, ~ In e repo -> p_asp (inject t0 s repo) e = p_asp s e /\ p_info (inject t0 s repo) e = p_info s e) /\
  (forall r, r < p_next s -> p_heap (inject t0 s repo) r = p_heap s r).
Proof.
  induction repo as [|x repo IH]; intros s Hn.
  - exists (fun _ => 0). cbn. repeat (split; [intros; try contradiction; auto|]); auto.
  - inversion Hn as [|? ? Hx Hn']; subst. change (inject t0 s (x :: repo)) with (inject t0 (inject_one t0 s x) repo).
    destruct (IH (inject_one t0 s x) Hn') as [ref [R1 [R2 [R3 [R4 [R5 R6]]]]]].
    set (s1 := inject_one t0 s x) in *. set (s' := inject t0 s1 repo) in *. assert (N1 : p_next s1 = S (p_next s)) by reflexivity.
    exists (upd ref x (p_next s)). unfold upd.
    split. { intros e [<-|He]; [rewrite Nat.eqb_refl; lia|]. destruct (Nat.eqb_spec e x); [lia|]. specialize (R1 e He). lia. }
    split. { intros e f He Hf. destruct (Nat.eqb_spec e x) as [->|Ne], (Nat.eqb_spec f x) as [->|Nf]; intros E; auto.
      - destruct Hf as [Hf|Hf]; [congruence|]. specialize (R1 f Hf). lia.
      - destruct He as [He|He]; [congruence|]. specialize (R1 e He). lia.
      - destruct He as [He|He]; [congruence|]. destruct Hf as [Hf|Hf]; [congruence|]. auto. }
    split; [lia|].
    split. { intros e He. destruct (Nat.eqb_spec e x) as [->|Ne].
      - destruct (R5 x Hx) as [A B]. rewrite A, B, R6 by lia. unfold s1, inject_one; cbn. unfold upd. rewrite !Nat.eqb_refl. auto.
      - destruct He as [He|He]; [congruence|]. destruct (R4 e He) as [A [B C]]. rewrite A. split; [|auto]. unfold s1, inject_one; cbn. unfold upd. destruct (Nat.eqb_spec e x); [contradiction|reflexivity]. }
    split. { intros e He. destruct (R5 e) as [A B]; [intros K; apply He; right; exact K|]. rewrite A, B. unfold s1, inject_one; cbn. unfold upd. destruct (Nat.eqb_spec e x) as [->|_]; [destruct He; left; reflexivity|auto]. }
    intros r Hr. rewrite R6 by lia. unfold s1, inject_one; cbn. unfold upd. destruct (Nat.eqb_spec r (p_next s)); [lia|reflexivity].
Qed.

(** After injection and the run. *)
Lemma after_run t0 repo s evs : NoDup repo -> only_user s -> exists ref s1, p_run (inject t0 s repo) evs = Some s1 /\
  (forall e f, In e repo -> In f repo -> ref e = ref f -> e = f) /\
  J t0 repo (p_asp s) ref (fun e => replay t0 (of_el e evs)) (fun e => added (of_el e evs)) s1.
Proof.
  intros Hn Hu. destruct (inject_spec t0 repo s Hn) as [ref [_ [R2 [_ [R4 [R5 _]]]]]].
  assert (H0 : J t0 repo (p_asp s) ref (fun _ => (0%Z, info0)) (fun _ => []) (inject t0 s repo)).
  { constructor; cbn [fst snd]; [exact R4| |intros e a []]. intros e He. rewrite app_nil_r. apply R5; exact He. }
  destruct (p_run_J t0 repo (p_asp s) ref Hu R2 evs _ _ _ H0) as [s1 [E H1]]. exists ref, s1. split; [exact E|]. split; [exact R2|exact H1].
Qed.

(** Marking. *)
Lemma mark_fold repo ref w s : (forall e f : nat, In e repo -> In f repo -> ref e = ref f -> e = f) ->
  (forall e, In e repo -> p_info s e = Some (ref e) /\ p_heap s (ref e) = Some (w e)) -> forall p, incl p repo ->
  let s' := fold_left mark_one p s in p_asp s' = p_asp s /\ p_info s' = p_info s /\ p_next s' = p_next s /\
  forall e, In e repo -> p_heap s' (ref e) = Some (mkInfo (i_loop (w e)) (i_first (w e)) (i_last (w e)) (i_accu (w e)) (memb e p || i_long (w e))).
Proof.
  intros Hr H p. revert w s H. induction p as [|x p IH]; intros w s H Hp; cbn [fold_left].
  - do 3 (split; [reflexivity|]). intros e He. destruct (H e He) as [_ ->]. cbn. destruct (w e); reflexivity.
  - assert (Hx : In x repo) by (apply Hp; left; reflexivity). destruct (H x Hx) as [A B].
    assert (E1 : mark_one s x = mkP (p_asp s) (p_info s) (upd (p_heap s) (ref x) (Some (mkInfo (i_loop (w x)) (i_first (w x)) (i_last (w x)) (i_accu (w x)) true))) (p_next s)).
    { unfold mark_one. rewrite A, B. reflexivity. }
    specialize (IH (upd w x (mkInfo (i_loop (w x)) (i_first (w x)) (i_last (w x)) (i_accu (w x)) true)) (mark_one s x)).
    destruct IH as [I1 [I2 [I3 I4]]].
    + intros e He. rewrite E1. cbn [p_info p_heap]. split; [apply H; exact He|]. unfold upd. destruct (Nat.eqb_spec (ref e) (ref x)) as [E|N].
      * rewrite (Hr e x He Hx E), Nat.eqb_refl. reflexivity.
      * destruct (Nat.eqb_spec e x) as [->|_]; [congruence|apply H; exact He].
    + intros y Hy; apply Hp; right; exact Hy.
    + rewrite I1, I2, I3, E1. cbn [p_asp p_info p_next]. do 3 (split; [reflexivity|]).
      intros e He. rewrite <- E1, (I4 e He). unfold upd. unfold memb. cbn [existsb].
      destruct (Nat.eqb_spec e x) as [->|_]; cbn [i_loop i_first i_last i_accu i_long orb]; [rewrite orb_true_r|]; reflexivity.
Qed.

Definition cost (w : nat -> pinfo) (p : list nat) : Z := total (fun e => i_accu (w e)) p.
Lemma path_cost_val repo w s : (forall e, In e repo -> info_of s e = Some (w e)) -> forall p, incl p repo -> path_cost s p = Some (cost w p).
Proof.
  intros H p. induction p as [|x p IH]; intros Hp; [reflexivity|]. cbn [path_cost]. rewrite (H x) by (apply Hp; left; reflexivity).
  rewrite IH by (intros y Hy; apply Hp; right; exact Hy). reflexivity.
Qed.
Lemma longest_spec repo w s : (forall e, In e repo -> info_of s e = Some (w e)) -> forall paths best m, (forall p, In p paths -> incl p repo) -> cost w best = m ->
  exists r, longest s best m paths = Some r /\ (r = best \/ In r paths) /\ (m <= cost w r)%Z /\ (forall p, In p paths -> (cost w p <= cost w r)%Z) /\
  (r = best -> In r paths \/ forall p, In p paths -> (cost w p < m)%Z).
Proof.
  intros H. induction paths as [|p paths IH]; intros best m Hp Hb; cbn [longest].
  - exists best. split; [reflexivity|]. split; [left; reflexivity|]. split; [lia|]. split; [intros ? []|]. intros _. right. intros ? [].
  - rewrite (path_cost_val repo w s H p) by (apply Hp; left; reflexivity).
    assert (Hp' : forall q, In q paths -> incl q repo) by (intros q Hq; apply Hp; right; exact Hq).
    destruct (Z.leb_spec m (cost w p)) as [L|L].
    + destruct (IH p (cost w p) Hp' eq_refl) as [r [E [A [B [C D]]]]]. exists r. split; [exact E|].
      split; [right; destruct A as [->|A]; [left; reflexivity|right; exact A]|]. split; [lia|].
      split; [intros q [<-|Hq]; [lia|apply C; exact Hq]|]. intros _. left. destruct A as [->|A]; [left; reflexivity|right; exact A].
    + destruct (IH best m Hp' Hb) as [r [E [A [B [C D]]]]]. exists r. split; [exact E|].
      split; [destruct A as [A|A]; [left; exact A|right; right; exact A]|]. split; [lia|].
      split; [intros q [<-|Hq]; [lia|apply C; exact Hq]|]. intros Hr. destruct (D Hr) as [D'|D']; [left; right; exact D'|]. right. intros q [<-|Hq]; [lia|apply D'; exact Hq].
Qed.

(** Recovering. *)
Lemma recover_fold : forall repo ok s, NoDup repo -> (forall e, In e repo -> p_asp s e <> []) ->
  let s' := snd (fold_left recover_one repo (ok, s)) in fst (fold_left recover_one repo (ok, s)) = ok /\
  (forall e, In e repo -> p_asp s' e = removelast (p_asp s e) /\ p_info s' e = None) /\
  (forall e, ~ In e repo -> p_asp s' e = p_asp s e /\ p_info s' e = p_info s e) /\
  (forall e r, In e repo -> p_info s e = Some r -> p_heap s' r = None) /\ (forall r, p_heap s r = None -> p_heap s' r = None).
Proof.
  induction repo as [|x repo IH]; intros ok s Hn Ha; cbn [fold_left].
  - cbn. repeat (split; [intros; try contradiction; auto|]); auto.
  - inversion Hn as [|? ? Hx Hn']; subst. set (s1 := snd (recover_one (ok, s) x)).
    assert (E : recover_one (ok, s) x = (ok, s1)).
    { unfold s1, recover_one, pop_last. destruct (p_asp s x) eqn:Q; [destruct (Ha x (or_introl eq_refl) Q)|]. cbn [snd]. rewrite andb_true_r. reflexivity. }
    assert (A1 : forall e, p_asp s1 e = if Nat.eqb e x then removelast (p_asp s x) else p_asp s e).
    { intros e. unfold s1, recover_one, pop_last. destruct (p_asp s x) eqn:Q; [destruct (Ha x (or_introl eq_refl) Q)|]. cbn [snd p_asp]. unfold upd. reflexivity. }
    assert (A2 : forall e, p_info s1 e = if Nat.eqb e x then None else p_info s e).
    { intros e. unfold s1, recover_one. destruct (pop_last (p_asp s x)). reflexivity. }
    assert (A3 : forall r, p_heap s1 r = match p_info s x with None => p_heap s r | Some q => if Nat.eqb r q then None else p_heap s r end).
    { intros e. unfold s1, recover_one. destruct (pop_last (p_asp s x)). cbn [snd p_heap]. destruct (p_info s x); reflexivity. }
    rewrite E. destruct (IH ok s1 Hn') as [I1 [I2 [I3 [I4 I5]]]].
    { intros e He. rewrite A1. destruct (Nat.eqb_spec e x) as [->|_]; [contradiction|]. apply Ha; right; exact He. }
    split; [exact I1|]. split; [|split; [|split]].
    + intros e [<-|He]; [destruct (I3 x Hx) as [B1 B2]; rewrite B1, B2, A1, A2, Nat.eqb_refl; auto|].
      destruct (I2 e He) as [B1 B2]. rewrite B1, B2, A1. destruct (Nat.eqb_spec e x) as [->|_]; [contradiction|auto].
    + intros e He. destruct (I3 e) as [B1 B2]; [intros K; apply He; right; exact K|]. rewrite B1, B2, A1, A2. destruct (Nat.eqb_spec e x) as [->|_]; [destruct He; left; reflexivity|auto].
    + intros e r [<-|He] Hi; [apply I5; rewrite A3, Hi, Nat.eqb_refl; reflexivity|]. apply (I4 e r He). rewrite A2. destruct (Nat.eqb_spec e x) as [->|_]; [contradiction|exact Hi].
    + intros r Hr. apply I5. rewrite A3. destruct (p_info s x) as [q|]; [destruct (Nat.eqb r q)|]; auto.
Qed.

(** What the events of one element amount to. *)
Lemma replay_long t0 : forall l x, i_long (snd (fold_left (p1 t0) l x)) = i_long (snd x).
Proof.
  induction l as [|v l IH]; intros [cur i]; [reflexivity|]. cbn [fold_left]. rewrite IH. destruct v; cbn [p1 snd i_long]; [|reflexivity|reflexivity].
  destruct (Z.eqb 0 (i_first i)); reflexivity.
Qed.
Lemma replay_counts t0 l its : iterations l its -> forall x,
  let r := snd (fold_left (p1 t0) l x) in
  i_loop r = i_loop (snd x) + length its /\ i_accu r = (i_accu (snd x) + total duration its)%Z.
Proof.
  induction 1 as [|b f l its H IH|b l its H IH]; intros [cur i]; cbn [fold_left].
  - cbn. split; lia.
  - cbn [p1]. edestruct IH as [A B]. rewrite A, B. cbn [snd i_loop i_accu].
    change (total duration ((b, f) :: its)) with (duration (b, f) + total duration its)%Z. unfold duration at 2. cbn [fst snd length].
    destruct (Z.eqb 0 (i_first i)); cbn [i_loop i_accu]; split; lia.
  - cbn [p1]. edestruct IH as [A B]. rewrite A, B. cbn [snd]. destruct (Z.eqb 0 (i_first i)); cbn [i_loop i_accu]; auto.
Qed.
Lemma replay_last t0 : forall l x, i_last (snd (fold_left (p1 t0) l x)) = match last_finish l with None => i_last (snd x) | Some f => (f - t0)%Z end.
Proof.
  induction l as [|v l IH]; intros [cur i]; [reflexivity|]. cbn [fold_left]. rewrite IH. destruct v; cbn [p1 snd i_last last_finish].
  - destruct (last_finish l); [reflexivity|]. destruct (Z.eqb 0 (i_first i)); reflexivity.
  - destruct (last_finish l); reflexivity.
  - reflexivity.
Qed.
Lemma replay_first_kept t0 : forall l x, i_first (snd x) <> 0%Z -> i_first (snd (fold_left (p1 t0) l x)) = i_first (snd x).
Proof.
  induction l as [|v l IH]; intros [cur i] H; [reflexivity|]. cbn [fold_left snd] in *.
  assert (E : i_first (snd (p1 t0 (cur, i) v)) = i_first i).
  { destruct v; cbn [p1 snd i_first]; [|reflexivity|reflexivity]. destruct (Z.eqb_spec 0 (i_first i)); [congruence|reflexivity]. }
  rewrite IH; rewrite E; [reflexivity|exact H].
Qed.
Lemma replay_first t0 : forall l cur i b, i_first i = 0%Z -> first_begin l = Some b -> b <> t0 -> i_first (snd (fold_left (p1 t0) l (cur, i))) = (b - t0)%Z.
Proof.
  induction l as [|v l IH]; intros cur i b Hi Hb Hn; [discriminate|]. destruct v; cbn [first_begin] in Hb; cbn [fold_left p1].
  - injection Hb as ->. rewrite Hi. cbn [Z.eqb]. rewrite replay_first_kept; cbn [snd i_first]; [reflexivity|lia].
  - apply IH; auto.
  - apply IH; auto.
Qed.
Lemma total_app {A} (f : A -> Z) a b : total f (a ++ b) = (total f a + total f b)%Z.
Proof. induction a as [|x a IH]; [reflexivity|]. cbn [app]. change (total f (x :: a ++ b)) with (f x + total f (a ++ b))%Z. rewrite IH. change (total f (x :: a)) with (f x + total f a)%Z. lia. Qed.
Lemma total_nonneg {A} (f : A -> Z) l : (forall x, In x l -> (0 <= f x)%Z) -> (0 <= total f l)%Z.
Proof.
  induction l as [|x l IH]; intros H; [cbn; lia|]. change (total f (x :: l)) with (f x + total f l)%Z.
  specialize (IH (fun y Hy => H y (or_intror Hy))). specialize (H x (or_introl eq_refl)). lia.
Qed.
