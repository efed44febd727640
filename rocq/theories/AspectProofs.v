(** What an aspect sees, from the grammar of the calls of ElemSpec. *)
From Verif Require Export AspectSpec ElemProofs.
From Coq Require Import Lia.
Local Open Scope nat_scope.
Local Open Scope list_scope.

Lemma seen_app f i a b : seen f i (a ++ b) = seen f i a ++ seen f i b.
Proof. unfold seen. rewrite map_app. apply flat_map_app. Qed.
Lemma seen_cons f i e b : seen f i (e :: b) = marks f i (fst e) ++ seen f i b.
Proof. reflexivity. Qed.
Definition kmark (f : fntype) (k : akind) : list bool := if akind_eq k (begin_of f) then [true] else if akind_eq k (finish_of f) then [false] else [].
Lemma seq_marks f i k arg m : forall a, flat_map (marks f i) (map (fun x => CAspect k x arg) (seq a m)) = if Nat.leb a i && Nat.ltb i (a + m) then kmark f k else [].
Proof.
  induction m as [|m IH]; intros a; cbn [seq map flat_map].
  - destruct (Nat.leb_spec a i), (Nat.ltb_spec i (a + 0)); cbn [andb]; try reflexivity. lia.
  - rewrite IH. cbn [marks]. fold (kmark f k). destruct (Nat.eqb_spec a i) as [->|N].
    + destruct (Nat.leb_spec (S i) i); [lia|]. cbn [andb]. rewrite app_nil_r. destruct (Nat.leb_spec i i); [|lia]. destruct (Nat.ltb_spec i (i + S m)); [|lia]. reflexivity.
    + cbn [app]. destruct (Nat.leb_spec (S a) i), (Nat.leb_spec a i), (Nat.ltb_spec i (S a + m)), (Nat.ltb_spec i (a + S m)); cbn [andb]; try reflexivity; lia.
Qed.
Lemma begin_mark f : kmark f (begin_of f) = [true]. Proof. unfold kmark. destruct (akind_eq (begin_of f) (begin_of f)); congruence. Qed.
Lemma finish_mark f : kmark f (finish_of f) = [false]. Proof. destruct f; reflexivity. Qed.
Lemma begin_is f : is_begin (begin_of f) = true. Proof. destruct f; reflexivity. Qed.
Lemma finish_is f : is_begin (finish_of f) = false. Proof. destruct f; reflexivity. Qed.

(** A round of aspects: the first [j] see the mark. *)
Lemma aspect_seen f k arg n l o : aspect_calls k arg n l o -> exists j, j <= n /\ (forall i, seen f i l = if Nat.ltb i j then kmark f k else []) /\
  (o = Fine -> j = n /\ Forall (fun e => ~ bad e) l) /\
  (o <> Fine -> 0 < j /\ (exists r, In (CAspect k (pred j) arg, r) l /\ call_fate (is_begin k) r <> Fine) /\
     forall c s, In (c, s) l -> bad (c, s) -> c = CAspect k (pred j) arg).
Proof.
  intros (j & L & M & K). exists j. split; [exact L|]. split.
  { intros i. unfold seen. rewrite M, seq_marks. cbn [Nat.leb andb]. rewrite Nat.add_0_l. reflexivity. }
  assert (ENT : forall x, In x l -> exists i, fst x = CAspect k i arg).
  { intros x I. assert (I2 : In (fst x) (map fst l)) by (apply in_map; exact I). rewrite M in I2. apply in_map_iff in I2. destruct I2 as (i & <- & _). eauto. }
  assert (GOODF : forall x, In x l -> call_fate (is_begin k) (snd x) = Fine -> ~ bad x).
  { intros x I F B. destruct (ENT x I) as (i & E). unfold bad in B. rewrite E in B. auto. }
  destruct K as [(-> & -> & F)|(l0 & e & -> & F & O & N)].
  - split; [|congruence]. intros _. split; [reflexivity|]. rewrite Forall_forall in *. auto.
  - split; [congruence|]. intros _. 
    assert (LEN : length (l0 ++ [e]) = j) by (rewrite <- (map_length fst), M, map_length, seq_length; reflexivity).
    rewrite app_length in LEN. cbn [length] in LEN. split; [lia|].
    assert (FE : fst e = CAspect k (pred j) arg).
    { rewrite map_app in M. cbn [map] in M. replace j with (S (pred j)) in M by lia. rewrite seq_S, map_app in M. cbn [map] in M. apply app_inj_tail in M. destruct M as [_ M]. rewrite M. reflexivity. }
    split; [exists (snd e); split; [apply in_or_app; right; left; destruct e; cbn in *; congruence|congruence]|].
    intros c s I B. apply in_app_or in I. destruct I as [I|[I|[]]].
    + exfalso. rewrite Forall_forall in F. apply (GOODF (c, s)); [apply in_or_app; auto|apply F; exact I|exact B].
    + subst e. exact FE.
Qed.

(** Calls that are no aspects. *)
Definition plain_call (c : cb) : bool := match c with CAspect _ _ _ => false | _ => true end.
Lemma plain_seen f i l : Forall (fun e => plain_call (fst e) = true) l -> seen f i l = [].
Proof. induction 1 as [|e l H F IH]; [reflexivity|]. rewrite seen_cons, IH, app_nil_r. destruct (fst e); try discriminate H; reflexivity. Qed.
Lemma body_plain l st o : body_calls l st o -> Forall (fun e => fst e = CBody \/ fst e = CHold) l.
Proof. induction 1; repeat (constructor; [cbn; auto|]); try constructor; auto. Qed.
Lemma body_seen f i l st o : body_calls l st o -> seen f i l = [].
Proof. intros B. apply plain_seen. apply body_plain in B. rewrite Forall_forall in *. intros e I. destruct (B e I) as [->| ->]; reflexivity. Qed.
Lemma body_fine l st o : body_calls l st o -> o = Fine -> Forall (fun e => ~ bad e) l.
Proof.
  induction 1 as [r H|r h H Hn|r h H Hn Hh|r h l st o H Hn Hh Hf B IH]; intros E.
  - congruence.
  - constructor; [cbn; intros X; apply X, H|]. constructor; [cbn; intros X; apply X, E|constructor].
  - constructor; [cbn; intros X; apply X, H|]. constructor; [cbn; intros X; apply X, E|constructor].
  - constructor; [cbn; intros X; apply X, H|]. constructor; [cbn; intros X; apply X, Hh|auto].
Qed.
Lemma body_bad l st o : body_calls l st o -> o <> Fine -> exists e, In e l /\ bad e.
Proof.
  induction 1 as [r H|r h H Hn|r h H Hn Hh|r h l st o H Hn Hh Hf B IH]; intros E.
  - exists (CBody, r). split; [left; reflexivity|exact H].
  - exists (CHold, h). split; [right; left; reflexivity|exact E].
  - exists (CHold, h). split; [right; left; reflexivity|exact E].
  - destruct (IH E) as (e & I & K). exists e. split; [right; right; exact I|exact K].
Qed.

(** One round of begin, body, finish, for the three functions. [at_begin j]: stopped at the begin of aspect j. *)
Record round (f : fntype) (n : nat) (l : log) (stop : bool) : Prop := {
  r_fine : stop = false -> (forall i, i < n -> seen f i l = [true; false]) /\ Forall (fun e => ~ bad e) l;
  r_stop : stop = true -> (exists e, In e l /\ bad e) /\ (forall i, i < n -> seen f i l = [] \/ seen f i l = [true] \/ seen f i l = [true; false]);
  r_begin : forall j arg r, In (CAspect (begin_of f) j arg, r) l -> call_fate true r <> Fine ->
    stop = true /\ forall i, i < n -> seen f i l = if Nat.leb i j then [true] else [];
  r_body : forall r, In (body_of f, r) l -> call_fate false r <> Fine -> stop = true /\ forall i, i < n -> seen f i l = [true] }.

Lemma aspect_no_body f k arg n l o r : aspect_calls k arg n l o -> ~ In (body_of f, r) l.
Proof. intros (j & _ & M & _) I. assert (I2 : In (body_of f) (map fst l)) by (change (body_of f) with (fst (body_of f, r)); apply in_map, I). rewrite M in I2. apply in_map_iff in I2. destruct I2 as (x & E & _). destruct f; discriminate E. Qed.
Lemma aspect_kind k arg n l o k' j a r : aspect_calls k arg n l o -> In (CAspect k' j a, r) l -> k' = k /\ a = arg.
Proof. intros (m & _ & M & _) I. assert (I2 : In (CAspect k' j a) (map fst l)) by (change (CAspect k' j a) with (fst (CAspect k' j a, r)); apply in_map, I). rewrite M in I2. apply in_map_iff in I2. destruct I2 as (x & E & _). injection E as <- <- <-. auto. Qed.

(** The three ways a round can go. [mid]: the calls between begin and finish. *)
Lemma round_begin f n l o : aspect_calls (begin_of f) st_default n l o -> o <> Fine -> round f n l true.
Proof.
  intros A O. destruct (aspect_seen f _ _ _ _ _ A) as (j & L & S & _ & B). destruct (B O) as (P & (r & I & C) & U).
  split.
  - discriminate.
  - intros _. split; [exists (CAspect (begin_of f) (pred j) st_default, r); split; [exact I|]; cbn; exact C|].
    intros i _. rewrite S, begin_mark. destruct (Nat.ltb i j); auto.
  - intros j0 a r0 I0 C0. split; [reflexivity|]. intros i Hi. rewrite S, begin_mark.
    assert (E : CAspect (begin_of f) j0 a = CAspect (begin_of f) (pred j) st_default) by (eapply U; [exact I0|]; cbn; rewrite begin_is; exact C0).
    injection E as -> _. destruct (Nat.ltb_spec i j), (Nat.leb_spec i (pred j)); try reflexivity; lia.
  - intros r0 I0. exfalso. exact (aspect_no_body f _ _ _ _ _ _ A I0).
Qed.
Lemma round_mid f n lb lm : aspect_calls (begin_of f) st_default n lb Fine -> Forall (fun e => plain_call (fst e) = true) lm ->
  (exists e, In e lm /\ bad e) -> round f n (lb ++ lm) true.
Proof.
  intros A P (e & I & B). destruct (aspect_seen f _ _ _ _ _ A) as (j & L & S & G & _). destruct (G eq_refl) as [-> NB].
  assert (SE : forall i, i < n -> seen f i (lb ++ lm) = [true]).
  { intros i Hi. rewrite seen_app, (plain_seen f i lm P), app_nil_r, S, begin_mark. rewrite (proj2 (Nat.ltb_lt i n) Hi). reflexivity. }
  split.
  - discriminate.
  - intros _. split; [exists e; split; [apply in_or_app; auto|exact B]|]. intros i Hi. rewrite SE by exact Hi. auto.
  - intros j0 a r0 I0 C0. exfalso. apply in_app_or in I0. destruct I0 as [I0|I0].
    + rewrite Forall_forall in NB. apply (NB _ I0). cbn. rewrite begin_is. exact C0.
    + rewrite Forall_forall in P. specialize (P _ I0). discriminate P.
  - intros r0 I0 C0. split; [reflexivity|exact SE].
Qed.
Lemma round_end f n lb lm lf s o : aspect_calls (begin_of f) st_default n lb Fine -> Forall (fun e => plain_call (fst e) = true) lm -> Forall (fun e => ~ bad e) lm ->
  aspect_calls (finish_of f) s n lf o -> exists stop, (o = Fine <-> stop = false) /\ round f n (lb ++ lm ++ lf) stop.
Proof.
  intros A P G F. destruct (aspect_seen f _ _ _ _ _ A) as (j & L & S & GB & _). destruct (GB eq_refl) as [-> NB].
  destruct (aspect_seen f _ _ _ _ _ F) as (j2 & L2 & S2 & GF & BF).
  assert (SE : forall i, i < n -> seen f i (lb ++ lm ++ lf) = true :: (if Nat.ltb i j2 then [false] else [])).
  { intros i Hi. rewrite !seen_app, (plain_seen f i lm P), S, S2, begin_mark, finish_mark. rewrite (proj2 (Nat.ltb_lt i n) Hi). reflexivity. }
  exists (match o with Fine => false | _ => true end). split; [destruct o; split; congruence|].
  assert (NBG : forall j0 a r0, In (CAspect (begin_of f) j0 a, r0) (lb ++ lm ++ lf) -> call_fate true r0 <> Fine -> False).
  { intros j0 a r0 I0 C0. apply in_app_or in I0. destruct I0 as [I0|I0]; [|apply in_app_or in I0; destruct I0 as [I0|I0]].
    + rewrite Forall_forall in NB. apply (NB _ I0). cbn. rewrite begin_is. exact C0.
    + rewrite Forall_forall in P. specialize (P _ I0). discriminate P.
    + destruct (aspect_kind _ _ _ _ _ _ _ _ _ F I0) as [K _]. destruct f; discriminate K. }
  assert (NBD : forall r0, In (body_of f, r0) (lb ++ lm ++ lf) -> call_fate false r0 <> Fine -> False).
  { intros r0 I0 C0. apply in_app_or in I0. destruct I0 as [I0|I0]; [exact (aspect_no_body f _ _ _ _ _ _ A I0)|]. apply in_app_or in I0. destruct I0 as [I0|I0]; [|exact (aspect_no_body f _ _ _ _ _ _ F I0)].
    rewrite Forall_forall in G. apply (G _ I0). destruct f; exact C0. }
  assert (OO : o = Fine \/ o <> Fine) by (destruct o; auto; right; discriminate).
  split.
  - intros E. assert (OF : o = Fine) by (destruct o; congruence). destruct (GF OF) as [-> NF]. split.
    + intros i Hi. rewrite SE by exact Hi. rewrite (proj2 (Nat.ltb_lt i n) Hi). reflexivity.
    + apply Forall_app. split; [exact NB|]. apply Forall_app. auto.
  - intros E. assert (OF : o <> Fine) by (destruct o; congruence). destruct (BF OF) as (_ & (r & I & C) & _). split.
    + exists (CAspect (finish_of f) (pred j2) s, r). split; [apply in_or_app; right; apply in_or_app; right; exact I|exact C].
    + intros i Hi. rewrite SE by exact Hi. destruct (Nat.ltb i j2); auto.
  - intros j0 a r0 I0 C0. exfalso. eauto.
  - intros r0 I0 C0. exfalso. eauto.
Qed.
Lemma iteration_round n l st o : iteration n l st o -> exists stop, (o = Fine <-> stop = false) /\ round FRun n l stop.
Proof.
  intros [l0 o0 A O|lb lm s o0 A B O|lb lm s lf o0 A B F].
  - exists true. split; [split; congruence|]. exact (round_begin FRun n l0 o0 A O).
  - exists true. split; [split; congruence|]. apply (round_mid FRun n lb lm A); [|exact (body_bad _ _ _ B O)].
    apply body_plain in B. rewrite Forall_forall in *. intros e I. destruct (B e I) as [->| ->]; reflexivity.
  - apply (round_end FRun n lb lm lf s o0 A); [|exact (body_fine _ _ _ B eq_refl)|exact F].
    apply body_plain in B. rewrite Forall_forall in *. intros e I. destruct (B e I) as [->| ->]; reflexivity.
Qed.

(** Several rounds. *)
Record series (f : fntype) (n : nat) (l : log) (stop : bool) : Prop := {
  s_fine : stop = false -> (exists m, forall i, i < n -> seen f i l = rounds m) /\ Forall (fun e => ~ bad e) l;
  s_stop : stop = true -> (exists e, In e l /\ bad e) /\ exists m, forall i, i < n -> seen f i l = rounds m \/ seen f i l = rounds m ++ [true] \/ seen f i l = rounds (S m);
  s_begin : forall j arg r, In (CAspect (begin_of f) j arg, r) l -> call_fate true r <> Fine ->
    stop = true /\ exists m, forall i, i < n -> seen f i l = if Nat.leb i j then rounds m ++ [true] else rounds m;
  s_body : forall r, In (body_of f, r) l -> call_fate false r <> Fine -> stop = true /\ exists m, forall i, i < n -> seen f i l = rounds m ++ [true] }.
Lemma series_one f n l stop : round f n l stop -> series f n l stop.
Proof.
  intros [A B C D]. split.
  - intros E. destruct (A E) as [X Y]. split; [exists 1; exact X|exact Y].
  - intros E. destruct (B E) as [X Y]. split; [exact X|]. exists 0. exact Y.
  - intros j a r I K. destruct (C j a r I K) as [E X]. split; [exact E|]. exists 0. exact X.
  - intros r I K. destruct (D r I K) as [E X]. split; [exact E|]. exists 0. exact X.
Qed.
Lemma series_nil f n : series f n [] false.
Proof.
  split.
  - intros _. split; [exists 0; reflexivity|constructor].
  - discriminate.
  - intros j a r [].
  - intros r [].
Qed.
Lemma series_cons f n l1 l2 stop : round f n l1 false -> series f n l2 stop -> series f n (l1 ++ l2) stop.
Proof.
  intros [A _ C1 D1] [E B C D]. destruct (A eq_refl) as [S1 N1]. split.
  - intros K. destruct (E K) as [(m & X) Y]. split; [|apply Forall_app; auto]. exists (S m). intros i Hi. rewrite seen_app, S1, X by exact Hi. reflexivity.
  - intros K. destruct (B K) as [(e & I & Y) (m & X)]. split; [exists e; split; [apply in_or_app; auto|exact Y]|]. exists (S m). intros i Hi. rewrite seen_app, S1 by exact Hi.
    destruct (X i Hi) as [->|[->| ->]]; auto.
  - intros j a r I K. apply in_app_or in I. destruct I as [I|I]; [destruct (C1 j a r I K); discriminate|]. destruct (C j a r I K) as [Z (m & X)]. split; [exact Z|]. exists (S m).
    intros i Hi. rewrite seen_app, S1, X by exact Hi. destruct (Nat.leb i j); reflexivity.
  - intros r I K. apply in_app_or in I. destruct I as [I|I]; [destruct (D1 r I K); discriminate|]. destruct (D r I K) as [Z (m & X)]. split; [exact Z|]. exists (S m).
    intros i Hi. rewrite seen_app, S1, X by exact Hi. reflexivity.
Qed.
(** Calls before and after that are neither aspects of this function nor its body. *)
Definition other_call (f : fntype) (c : cb) : bool :=
  match c with CAspect k _ _ => if akind_eq k (begin_of f) then false else if akind_eq k (finish_of f) then false else true | _ => negb (match c, f with CBody, FRun => true | CInit, FInit => true | CDestroy, FDestroy => true | _, _ => false end) end.
Lemma other_seen f i l : Forall (fun e => other_call f (fst e) = true) l -> seen f i l = [].
Proof.
  induction 1 as [|e l H F IH]; [reflexivity|]. rewrite seen_cons, IH, app_nil_r. destruct (fst e); try reflexivity. cbn [marks other_call] in *.
  destruct (Nat.eqb i0 i); [|reflexivity]. destruct (akind_eq k (begin_of f)); [discriminate|]. destruct (akind_eq k (finish_of f)); [discriminate|reflexivity].
Qed.
Record open_series (f : fntype) (n : nat) (l : log) : Prop := {
  o_fine : Forall (fun e => ~ bad e) l -> exists m, forall i, i < n -> seen f i l = rounds m;
  o_any : exists m, forall i, i < n -> seen f i l = rounds m \/ seen f i l = rounds m ++ [true] \/ seen f i l = rounds (S m);
  o_begin : forall j arg r, In (CAspect (begin_of f) j arg, r) l -> call_fate true r <> Fine ->
    exists m, forall i, i < n -> seen f i l = if Nat.leb i j then rounds m ++ [true] else rounds m;
  o_body : forall r, In (body_of f, r) l -> call_fate false r <> Fine -> exists m, forall i, i < n -> seen f i l = rounds m ++ [true] }.
Lemma series_open f n a l b stop : Forall (fun e => other_call f (fst e) = true) a -> Forall (fun e => other_call f (fst e) = true) b -> series f n l stop -> open_series f n (a ++ l ++ b).
Proof.
  intros FA FB [A B C D].
  assert (SE : forall i, seen f i (a ++ l ++ b) = seen f i l) by (intros i; rewrite !seen_app, (other_seen f i a FA), (other_seen f i b FB), app_nil_r; reflexivity).
  assert (NO : forall c r, other_call f c = false -> In (c, r) (a ++ l ++ b) -> In (c, r) l).
  { intros c r O I. rewrite Forall_forall in FA, FB. apply in_app_or in I. destruct I as [I|I]; [specialize (FA _ I); cbn [fst] in FA; congruence|]. apply in_app_or in I. destruct I as [I|I]; [exact I|specialize (FB _ I); cbn [fst] in FB; congruence]. }
  assert (O1 : forall j arg, other_call f (CAspect (begin_of f) j arg) = false) by (intros j arg; cbn; destruct (akind_eq (begin_of f) (begin_of f)); congruence).
  assert (O2 : other_call f (body_of f) = false) by (destruct f; reflexivity).
  split.
  - intros F. apply Forall_app in F. destruct F as [_ F]. apply Forall_app in F. destruct F as [F _]. destruct stop.
    + exfalso. destruct (B eq_refl) as [(e & I & K) _]. rewrite Forall_forall in F. exact (F e I K).
    + destruct (A eq_refl) as [(m & X) _]. exists m. intros i Hi. rewrite SE. auto.
  - destruct stop.
    + destruct (B eq_refl) as [_ (m & X)]. exists m. intros i Hi. rewrite SE. auto.
    + destruct (A eq_refl) as [(m & X) _]. exists m. intros i Hi. rewrite SE. auto.
  - intros j arg r I K. destruct (C j arg r (NO _ _ (O1 j arg) I) K) as [_ (m & X)]. exists m. intros i Hi. rewrite SE. auto.
  - intros r I K. destruct (D r (NO _ _ O2 I) K) as [_ (m & X)]. exists m. intros i Hi. rewrite SE. auto.
Qed.
Lemma series_state f n r l stop : series f n l stop -> series f n ((CState, r) :: l) stop.
Proof.
  intros [A B C D].
  assert (SE : forall i, seen f i ((CState, r) :: l) = seen f i l) by reflexivity.
  assert (BD : body_of f <> CState) by (destruct f; discriminate).
  split.
  - intros K. destruct (A K) as [X Y]. split; [exact X|]. constructor; [cbn; auto|exact Y].
  - intros K. destruct (B K) as [(e & I & Y) X]. split; [exists e; split; [right; exact I|exact Y]|exact X].
  - intros j a r0 [I|I] K; [discriminate I|]. exact (C j a r0 I K).
  - intros r0 [I|I] K; [congruence|]. exact (D r0 I K).
Qed.
Lemma iterations_series n k l st o : iterations n k l st o -> exists stop, series FRun n l stop.
Proof.
  induction 1 as [|k r H|k r l1 l2 st o H I It (stop & IH)|k r l st o H I S].
  - exists false. apply series_nil.
  - exists false. apply (series_state FRun n r []). apply series_nil.
  - destruct (iteration_round n l1 st_default Fine I) as (s1 & E & R). destruct s1; [destruct E as [E _]; specialize (E eq_refl); discriminate|].
    exists stop. apply series_state. apply series_cons; assumption.
  - destruct (iteration_round n l st o I) as (s1 & E & R). exists s1. apply series_state. apply series_one, R.
Qed.
Lemma open_plain f n l : Forall (fun e => other_call f (fst e) = true) l -> open_series f n l.
Proof. intros F. rewrite <- (app_nil_r l). apply (series_open f n l [] [] false F); [constructor|apply series_nil]. Qed.
Lemma check_other st l d : check_calls st l d -> Forall (fun e => other_call FRun (fst e) = true) l.
Proof. destruct 1; repeat (constructor; [reflexivity|]); constructor. Qed.
Lemma prepare_other (p : bool) lp : (p = true /\ lp = [] \/ p = false /\ exists r, lp = [(CPrepare, r)] /\ call_fate true r = Fine /\ code (r_st r) = 0%Z) ->
  Forall (fun e => other_call FRun (fst e) = true) lp.
Proof. intros [[_ ->]|[_ (r & -> & _)]]; repeat constructor. Qed.
Lemma crash_other f st n la o : aspect_calls AEnterCrashed st n la o -> Forall (fun e => other_call f (fst e) = true) la.
Proof.
  intros (j & _ & M & _). apply Forall_forall. intros e I. assert (I2 : In (fst e) (map fst la)) by (apply in_map, I). rewrite M in I2. apply in_map_iff in I2. destruct I2 as (x & <- & _).
  destruct f; reflexivity.
Qed.
Lemma run_open p n loop l p' d a b : run_calls p n loop l p' d -> Forall (fun e => other_call FRun (fst e) = true) a -> Forall (fun e => other_call FRun (fst e) = true) b ->
  open_series FRun n (a ++ l ++ b).
Proof.
  intros R FA FB. inversion R as [r Hp H|r lc d' Hp H Hn C|lp l0 st o Hp I Ho|lp l0 st lc d' Hp I C]; subst.
  - apply open_plain. apply Forall_app. split; [exact FA|]. constructor; [reflexivity|exact FB].
  - apply open_plain. apply Forall_app. split; [exact FA|]. constructor; [reflexivity|]. apply Forall_app. split; [exact (check_other _ _ _ C)|exact FB].
  - destruct (iterations_series _ _ _ _ _ I) as (stop & S). apply prepare_other in Hp. rewrite <- app_assoc. rewrite app_assoc. eapply series_open; [apply Forall_app; split; eassumption|exact FB|exact S].
  - destruct (iterations_series _ _ _ _ _ I) as (stop & S). apply prepare_other in Hp. apply check_other in C. rewrite <- !app_assoc. rewrite app_assoc.
    eapply series_open; [apply Forall_app; split; eassumption| |exact S]. apply Forall_app. auto.
Qed.
Lemma simple_open f kb kf c n l d a b : kb = begin_of f -> kf = finish_of f -> c = body_of f -> f <> FRun -> simple_calls kb kf c n l d ->
  Forall (fun e => other_call f (fst e) = true) a -> Forall (fun e => other_call f (fst e) = true) b -> open_series f n (a ++ l ++ b).
Proof.
  intros -> -> -> NF R FA FB.
  assert (PL : forall r, Forall (fun e : cb * resp => plain_call (fst e) = true) [(body_of f, r)]) by (intros r; constructor; [destruct f; reflexivity|constructor]).
  inversion R as [l0 o A O|l0 r st A H Hs|l0 r s lf o A H Hc Hi F]; subst.
  - eapply series_open; [exact FA|exact FB|]. apply series_one. exact (round_begin f n l o A O).
  - eapply series_open; [exact FA|exact FB|]. apply series_one. apply (round_mid f n l0 _ A (PL r)). exists (body_of f, r). split; [left; reflexivity|]. destruct f; exact H.
  - destruct (round_end f n l0 [(body_of f, r)] lf s o A (PL r)) as (stop & _ & X); [constructor; [destruct f; cbn; congruence|constructor]|exact F|].
    eapply series_open; [exact FA|exact FB|]. apply series_one. exact X.
Qed.
Lemma try_open f p n loop l p' d a b : try_calls f p n loop l p' d -> Forall (fun e => other_call f (fst e) = true) a -> Forall (fun e => other_call f (fst e) = true) b -> open_series f n (a ++ l ++ b).
Proof.
  destruct f; cbn [try_calls].
  - intros [S _]. apply (simple_open FInit ABeginInit AFinishInit CInit n l d a b); try reflexivity; [discriminate|exact S].
  - intros R. exact (run_open p n loop l p' d a b R).
  - intros [S _]. apply (simple_open FDestroy ABeginDestroy AFinishDestroy CDestroy n l d a b); try reflexivity; [discriminate|exact S].
Qed.
Lemma process_open f p n loop d p' o : process_calls f p n loop d p' o -> open_series f n d.
Proof.
  assert (MK : Forall (fun e : cb * resp => other_call f (fst e) = true) [(CMark f, r_none)]) by (constructor; [reflexivity|constructor]).
  intros K. inversion K as [x q s T|x q T|x q st m la T A|x q st m la m' T A|x q st m la T A]; subst.
  - pose proof (try_open f p n loop x p' _ [(CMark f, r_none)] [] T MK (Forall_nil _)) as X. rewrite app_nil_r in X. exact X.
  - pose proof (try_open f p n loop x p' _ [(CMark f, r_none)] [] T MK (Forall_nil _)) as X. rewrite app_nil_r in X. exact X.
  - exact (try_open f p n loop x p' _ [(CMark f, r_none)] la T MK (crash_other f _ _ _ _ A)).
  - exact (try_open f p n loop x p' _ [(CMark f, r_none)] la T MK (crash_other f _ _ _ _ A)).
  - exact (try_open f p n loop x p' _ [(CMark f, r_none)] la T MK (crash_other f _ _ _ _ A)).
Qed.
