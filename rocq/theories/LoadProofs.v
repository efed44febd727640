(** Proofs on loading into a pipeline. *)
From Verif Require Import StoreProofs ReflSpec ReflProofs.
From Verif Require Export LoadSpec.
Local Open Scope nat_scope.
Local Open Scope list_scope.

(** * The same result as the loading that forgets the state *)
Definition agrees {B} (r : res B) (a : after B) : Prop :=
  match r with LOk b => a = (LOk tt, b) | LErr => fst a = LErr | LThrow => fst a = LThrow | LUndef => fst a = LUndef end.
Lemma until_agrees {A B} (g : A -> B -> res B) (f : A -> B -> after B) : (forall x b, agrees (g x b) (f x b)) -> forall l b, agrees (each g l b) (until f l b).
Proof.
  intros H. induction l as [|x l IH]; intros b; [reflexivity|]. cbn [each until]. specialize (H x b). destruct (g x b) as [b'| | |]; cbn [bind agrees] in *.
  - rewrite H. cbn [and_then]. apply IH.
  - destruct (f x b) as [r c]. cbn in H. subst r. reflexivity.
  - destruct (f x b) as [r c]. cbn in H. subst r. reflexivity.
  - destruct (f x b) as [r c]. cbn in H. subst r. reflexivity.
Qed.
Lemma then_agrees {B} (r : res B) (a : after B) g f : agrees r a -> (forall b, r = LOk b -> agrees (g b) (f b)) -> agrees (bind r g) (and_then a f).
Proof.
  intros H K. destruct r as [b| | |]; cbn [bind agrees] in *.
  - subst a. cbn [and_then]. now apply K.
  - destruct a as [r c]. cbn in H. now subst r.
  - destruct a as [r c]. cbn in H. now subst r.
  - destruct a as [r c]. cbn in H. now subst r.
Qed.
Lemma passed_all {A} (f : A -> bool) l : forallb f l = true -> passed f l = l.
Proof. induction l as [|x l IH]; cbn; [easy|]. intros H. apply andb_prop in H as [-> H]. now rewrite IH. Qed.
Lemma ends_agrees {A B} (f : A -> B -> res B) x b : agrees (f x b) (ends f x b).
Proof. unfold ends, agrees. now destruct (f x b). Qed.

Section L.
Variable reg : str -> option obj.
Lemma created_all t : forallb (is_aspect reg) (t_aspects t) && forallb (fun p => is_passed reg (snd p)) (t_locals t) = true -> created reg t = t.
Proof. intros H. apply andb_prop in H as [H1 H2]. unfold created. rewrite (passed_all _ _ H1), (passed_all _ _ H2). now destruct t. Qed.
Lemma left2_agrees t h : agrees (load2 reg t h) (left2 reg t h).
Proof.
  unfold load2, left2. destruct (find_el (t_sess t) h) as [e|]; [|reflexivity].
  destruct (forallb (is_aspect reg) (t_aspects t) && forallb (fun p => is_passed reg (snd p)) (t_locals t)) eqn:E.
  - rewrite (created_all t E). destruct (t_belong t); [destruct (set_loop e (t_loop t))|]; reflexivity.
  - destruct (t_belong t); [destruct (set_loop e (t_loop t))|]; reflexivity.
Qed.
Lemma forallb_weaken {A} (f g : A -> bool) l : (forall x, f x = true -> g x = true) -> forallb f l = true -> forallb g l = true.
Proof. intros H. rewrite !forallb_forall. auto. Qed.
Lemma left_deps_agrees t e h :
  agrees (if forallb (fun d => match find_el d h with Some x => same_group (e_belong x) (e_belong e) | None => false end) (t_deps t) then LOk (on (t_sess t) (add_deps (t_deps t)) h) else LErr) (left_deps t e h).
Proof.
  unfold left_deps. set (fit := fun d => match find_el d h with Some x => same_group (e_belong x) (e_belong e) | None => false end).
  destruct (forallb fit (t_deps t)) eqn:E.
  - rewrite (forallb_weaken fit (fun d => match find_el d h with Some _ => true | None => false end) (t_deps t)); [|intros x; unfold fit; now destruct (find_el x h)|exact E]. cbn [agrees]. now rewrite passed_all.
  - destruct (forallb (fun d => match find_el d h with Some _ => true | None => false end) (t_deps t)); reflexivity.
Qed.
Lemma left3_agrees t h : agrees (load3 t h) (left3 t h).
Proof.
  unfold load3, left3. destruct (find_el (t_sess t) h) as [e|]; [|reflexivity]. apply then_agrees; [apply left_deps_agrees|]. intros h' _.
  destruct (t_kids t) as [|k ks]; [reflexivity|]. destruct (is_group (e_type e)); [|reflexivity]. apply until_agrees. intros x b. unfold left_kid. now destruct (add_element (t_sess t) (e_type e) x b).
Qed.
Lemma left_elements_agrees l : agrees (load_elements reg l) (left_elements reg l).
Proof.
  unfold load_elements, left_elements. destruct (each (load1 reg) l []) as [h| | |]; try reflexivity. cbn [bind]. apply then_agrees; [apply until_agrees, left2_agrees|]. intros b _. apply until_agrees, left3_agrees.
Qed.

Lemma ok_agrees {B} (r : res B) (a : after B) b : agrees r a -> a = (LOk tt, b) -> r = LOk b.
Proof. intros H ->. destruct r; cbn in H; try discriminate. now injection H as ->. Qed.

(** * What the loops preserve *)
(** The elements are those of the stored list. *)
Definition from (l : list st) (h : list el) : Prop := forall e, In e h -> exists t, In t l /\ e_sess e = t_sess t /\ e_type e = t_type t.
Lemma from_on l s f h : (forall e, e_sess (f e) = e_sess e /\ e_type (f e) = e_type e) -> from l h -> from l (on s f h).
Proof.
  intros H F e He. apply in_map_iff in He as (x & <- & Hx). destruct (F x Hx) as (t & Ht & S & T). exists t. split; [exact Ht|]. destruct (seqb (e_sess x) s); [|now split]. destruct (H x) as [-> ->]. now split.
Qed.
Lemma from_on_const l s e' h : (exists t, In t l /\ e_sess e' = t_sess t /\ e_type e' = t_type t) -> from l h -> from l (on s (fun _ => e') h).
Proof. intros H F e He. apply in_map_iff in He as (x & <- & Hx). destruct (seqb (e_sess x) s); [exact H|now apply F]. Qed.
Lemma until_inv {A B} (f : A -> B -> after B) (P : B -> Prop) : (forall x b, P b -> P (snd (f x b))) -> forall l b, P b -> P (snd (until f l b)).
Proof.
  intros H. induction l as [|x l IH]; intros b Hb; [exact Hb|]. cbn [until]. specialize (H x b Hb). destruct (f x b) as [[u| | |] c]; cbn [and_then snd] in *; auto.
Qed.
Lemma then_inv {B} (a : after B) f (P : B -> Prop) : P (snd a) -> (forall b, P b -> P (snd (f b))) -> P (snd (and_then a f)).
Proof. intros H K. destruct a as [[u| | |] c]; cbn [and_then snd] in *; auto. Qed.
Lemma find_some s h e : find_el s h = Some e -> In e h /\ e_sess e = s.
Proof. intros H. apply find_some in H as [H1 H2]. split; [exact H1|]. now apply seqb_eq. Qed.
Lemma set_loop_id e n e' : set_loop e n = Some e' -> e_sess e' = e_sess e /\ e_type e' = e_type e.
Proof. unfold set_loop. destruct (_ && _); [discriminate|]. intros [= <-]. now split. Qed.
Lemma set_timeout_id e t s e' : set_timeout e t s = Some e' -> e_sess e' = e_sess e /\ e_type e' = e_type e.
Proof. unfold set_timeout. destruct (_ && _); [discriminate|]. intros [= <-]. now split. Qed.
Lemma from2 l t h : from l h -> from l (snd (left2 reg t h)).
Proof.
  intros F. unfold left2. destruct (find_el (t_sess t) h) as [e|] eqn:E; [|exact F]. destruct (t_belong t) as [|b bs].
  - destruct (set_loop e (t_loop t)) as [e'|] eqn:S; [|exact F]. cbn [snd]. apply from_on_const; [|exact F]. apply find_some in E as [E _]. destruct (F e E) as (u & Hu & S1 & T1). exists u. split; [exact Hu|].
    destruct (set_loop_id _ _ _ S) as [S2 T2]. cbn [attach e_sess e_type]. rewrite S2, T2. now split.
  - cbn [snd]. apply from_on; [|exact F]. intros x. now split.
Qed.
Lemma from_kid l g gty k h : from l h -> from l (snd (left_kid g gty k h)).
Proof.
  intros F. assert (F' : from l (on k (in_group g) (on g (add_kid k) h))) by (apply from_on; [now split|]; apply from_on; [now split|exact F]).
  unfold left_kid, add_element. destruct (find_el k h) as [c|]; [|exact F]. destruct (_ && _); [|exact F']. destruct (set_timeout c max_block_ttl hold_by_pipeline); [|exact F']. cbn [snd].
  apply from_on; [|exact F']. intros x0. destruct (set_timeout x0 max_block_ttl hold_by_pipeline) eqn:S; [|now split]. now apply set_timeout_id in S.
Qed.
Lemma from3 l t h : from l h -> from l (snd (left3 t h)).
Proof.
  intros F. unfold left3. destruct (find_el (t_sess t) h) as [e|]; [|exact F]. apply then_inv.
  - unfold left_deps. destruct (forallb _ _); [|exact F]. cbn [snd]. apply from_on; [now split|exact F].
  - intros h' F'. destruct (t_kids t) as [|k ks]; [exact F'|]. destruct (is_group (e_type e)); [|exact F']. apply until_inv; [|exact F']. intros x b. apply from_kid.
Qed.
Lemma recover_id t ty tmo e : recover t ty tmo = Some e -> e_sess e = t_sess t /\ e_type e = ty.
Proof.
  unfold recover. destruct (set_loop _ (t_loop t)) as [a|] eqn:A; [|discriminate]. destruct (set_timeout _ (t_tmo t) (t_strat t)) as [c|] eqn:C; [|discriminate]. intros [= <-]. cbn [e_sess e_type].
  apply set_timeout_id in C as [_ C]. apply set_loop_id in A as [_ A]. cbn [e_type] in *. split; [reflexivity|]. now rewrite C, A.
Qed.
(** The first loop. *)
Lemma each1 l0 : forall l h h', (forall t, In t l -> In t l0) -> from l0 h -> each (load1 reg) l h = LOk h' -> from l0 h' /\ Forall (makes reg) l.
Proof.
  induction l as [|t l IH]; intros h h' S F E; cbn [each] in E; [injection E as <-; split; [exact F|constructor]|].
  unfold load1 at 1 in E. destruct (reg (t_cls t)) as [[ty tmo| | | | | |]|] eqn:R; try discriminate E. destruct (negb (ty =? t_type t)%N) eqn:T; [discriminate E|]. apply negb_false_iff, N.eqb_eq in T. subst ty.
  destruct (recover t (t_type t) tmo) as [e|] eqn:Rc; [|discriminate E]. cbn [bind] in E. apply recover_id in Rc as [R1 R2].
  apply IH in E as [E1 E2]; [split; [exact E1|constructor; [now exists tmo|exact E2]]|intros; apply S; now right|].
  intros x Hx. unfold cache_put in Hx. apply in_app_or in Hx as [Hx|[<-|[]]]; [apply filter_In in Hx as [Hx _]; now apply F|]. exists t. split; [apply S; now left|now split].
Qed.
Lemma from_elements l : from l (snd (left_elements reg l)).
Proof.
  unfold left_elements. destruct (each (load1 reg) l []) as [h| | |] eqn:E; try (now intros x0 []).
  apply each1 with (l0 := l) in E as [F _]; [|easy|now intros x0 []]. apply then_inv; [apply until_inv; [apply from2|exact F]|]. intros b F'. apply until_inv; [apply from3|exact F'].
Qed.

(** * What a successful run has checked *)
Lemma until_ok {A B} (f : A -> B -> after B) (P : B -> Prop) (Q : A -> Prop) : (forall x b, P b -> P (snd (f x b))) -> (forall x b, P b -> fst (f x b) = LOk tt -> Q x) -> forall l b, P b -> fst (until f l b) = LOk tt -> Forall Q l.
Proof.
  intros H K. induction l as [|x l IH]; intros b Hb E; [constructor|]. cbn [until] in E. assert (H' := H x b Hb). assert (K' := K x b Hb). destruct (f x b) as [[[]| | |] c]; cbn [and_then snd fst] in *; try discriminate E.
  constructor; [now apply K'|]. now apply IH with c.
Qed.
Lemma then_ok {B} (a : after B) f : fst (and_then a f) = LOk tt -> fst a = LOk tt /\ fst (f (snd a)) = LOk tt.
Proof. destruct a as [[[]| | |] c]; cbn; try discriminate. now split. Qed.
Lemma elements_ok l : fst (left_elements reg l) = LOk tt ->
  (forall t, In t l -> makes reg t) /\ (forall t c, In t l -> In c (t_aspects t) -> reg c = Some OAspect) /\ (forall t x, In t l -> In x (t_locals t) -> reg (snd x) = Some OPassed) /\
  (forall t d, In t l -> In d (t_deps t) -> exists x, In x l /\ t_sess x = d) /\ (forall t, In t l -> t_kids t <> [] -> exists x, In x l /\ t_sess x = t_sess t /\ is_group (t_type x) = true).
Proof.
  intros H. unfold left_elements in H. destruct (each (load1 reg) l []) as [h| | |] eqn:E; try discriminate H. apply each1 with (l0 := l) in E as [F M]; [|easy|now intros x0 []].
  apply then_ok in H as [H2 H3]. assert (F2 : from l (snd (until (left2 reg) l h))) by (apply until_inv; [apply from2|exact F]).
  assert (Q2 : Forall (fun t => forallb (is_aspect reg) (t_aspects t) && forallb (fun p => is_passed reg (snd p)) (t_locals t) = true) l).
  { apply until_ok with (f := left2 reg) (P := from l) (b := h); [apply from2| |exact F|exact H2]. intros t b _ Q. unfold left2 in Q. destruct (find_el (t_sess t) b) as [e|]; [|discriminate Q].
    destruct (_ && _); [reflexivity|]. destruct (t_belong t); [destruct (set_loop e (t_loop t))|]; discriminate Q. }
  assert (Q3 : Forall (fun t => (forall d, In d (t_deps t) -> exists x, In x l /\ t_sess x = d) /\ (t_kids t <> [] -> exists x, In x l /\ t_sess x = t_sess t /\ is_group (t_type x) = true)) l).
  { apply until_ok with (f := left3) (P := from l) (b := snd (until (left2 reg) l h)); [apply from3| |exact F2|exact H3]. intros t b Fb Q. unfold left3 in Q. destruct (find_el (t_sess t) b) as [e|] eqn:Fe; [|discriminate Q].
    apply then_ok in Q as [Qd Qk]. split.
    - intros d Hd. unfold left_deps in Qd. destruct (forallb _ (t_deps t)) eqn:FA; [|discriminate Qd]. rewrite forallb_forall in FA. specialize (FA d Hd). cbn beta in FA. destruct (find_el d b) as [x|] eqn:Fx; [|discriminate FA].
      apply find_some in Fx as [Fx <-]. destruct (Fb x Fx) as (u & Hu & S & _). exists u. now split.
    - intros Hk. destruct (t_kids t) as [|k ks]; [easy|]. destruct (is_group (e_type e)) eqn:G; [|discriminate Qk]. apply find_some in Fe as [Fe <-]. destruct (Fb e Fe) as (u & Hu & S & T). exists u. rewrite <- T. now split. }
  rewrite Forall_forall in M, Q2, Q3. split; [exact M|]. split; [|split; [|split]].
  - intros t c Ht Hc. specialize (Q2 t Ht). cbn beta in Q2. apply andb_prop in Q2 as [Q2 _]. rewrite forallb_forall in Q2. specialize (Q2 c Hc). unfold is_aspect in Q2. destruct (reg c) as [[]|]; try discriminate Q2. reflexivity.
  - intros t x Ht Hx. specialize (Q2 t Ht). cbn beta in Q2. apply andb_prop in Q2 as [_ Q2]. rewrite forallb_forall in Q2. specialize (Q2 x Hx). cbn beta in Q2. unfold is_passed in Q2. destruct (reg (snd x)) as [[]|]; try discriminate Q2. reflexivity.
  - intros t d Ht. now apply Q3.
  - intros t Ht. now apply Q3.
Qed.
Lemma ends_ok {A B} (f : A -> B -> res B) (Q : A -> Prop) : (forall x b b', f x b = LOk b' -> Q x) -> forall l b, fst (until (ends f) l b) = LOk tt -> forall x, In x l -> Q x.
Proof.
  intros H l b E. apply Forall_forall. apply until_ok with (f := ends f) (P := fun _ => True) (b := b); try easy. intros x c _. unfold ends. destruct (f x c) eqn:F; try discriminate. intros _. now apply H in F.
Qed.
End L.

(** * The configuration *)
Lemma signed_uniq k n z z' : is_signed k n z -> is_signed k n z' -> z = z'.
Proof.
  unfold is_signed. intros [B E] [B' E']. destruct k as [|k].
  - cbn in B, B'. lia.
  - set (m := (2 ^ (8 * Z.of_nat (S k) - 1))%Z) in *. assert (M : (2 ^ (8 * Z.of_nat (S k)) = 2 * m)%Z) by (unfold m; rewrite <- Z.pow_succ_r by lia; f_equal; lia). rewrite M in *.
    assert (P : (0 < m)%Z) by (apply Z.pow_pos_nonneg; lia). assert (D : ((z - z') mod (2 * m) = 0)%Z) by (rewrite Zminus_mod, E, E', Z.sub_diag; apply Z.mod_0_l; lia).
    apply Z.mod_divide in D; [|lia]. destruct D as [q D]. assert (q = 0)%Z by nia. lia.
Qed.
Lemma s32_signed n : fits 4 n -> is_signed 4 n (s32 n).
Proof.
  unfold fits, is_signed, s32. change (256 ^ N.of_nat 4)%N with 4294967296%N. change (2 ^ (8 * Z.of_nat 4 - 1))%Z with 2147483648%Z. change (2 ^ (8 * Z.of_nat 4))%Z with 4294967296%Z. intros H.
  destruct (N.ltb_spec n 2147483648).
  - split; [lia|]. apply Z.mod_small. lia.
  - split; [lia|]. rewrite <- (Z.mod_add _ 1) by lia. rewrite Z.mod_small; lia.
Qed.
Lemma s64_signed n : fits 8 n -> is_signed 8 n (s64 n).
Proof.
  unfold fits, is_signed, s64. change (256 ^ N.of_nat 8)%N with 18446744073709551616%N. change (2 ^ (8 * Z.of_nat 8 - 1))%Z with 9223372036854775808%Z. change (2 ^ (8 * Z.of_nat 8))%Z with 18446744073709551616%Z. intros H.
  destruct (N.ltb_spec n 9223372036854775808).
  - split; [lia|]. apply Z.mod_small. lia.
  - split; [lia|]. rewrite <- (Z.mod_add _ 1) by lia. rewrite Z.mod_small; lia.
Qed.
Lemma cfg_check_iff c : fits 4 (nth 0 c 0%N) -> fits 4 (nth 1 c 0%N) -> fits 4 (nth 2 c 0%N) -> fits 8 (nth 10 c 0%N) -> (cfg_check c = true <-> cfg_ok c).
Proof.
  intros F0 F1 F2 F10. apply s32_signed in F0, F1, F2. apply s64_signed in F10. unfold cfg_check. split.
  - intros H. rewrite !andb_true_iff, !negb_true_iff, andb_false_iff, negb_false_iff, !Z.ltb_ge, N.eqb_eq, Z.leb_gt in H. destruct H as [[[H0 H1] H2] H3].
    exists (s32 (nth 0 c 0%N)), (s32 (nth 1 c 0%N)), (s32 (nth 2 c 0%N)), (s64 (nth 10 c 0%N)). do 4 (split; [assumption|]). split; [lia|]. split; [lia|]. split; [lia|]. intros N. destruct H3; [contradiction|lia].
  - intros (a & b & m & t & Ha & Hb & Hm & Ht & A & B & C & D). rewrite <- (signed_uniq _ _ _ _ F0 Ha) in *. rewrite <- (signed_uniq _ _ _ _ F1 Hb) in *. rewrite <- (signed_uniq _ _ _ _ F2 Hm) in *. rewrite <- (signed_uniq _ _ _ _ F10 Ht) in *.
    rewrite !andb_true_iff, !negb_true_iff, andb_false_iff, negb_false_iff, !Z.ltb_ge, N.eqb_eq, Z.leb_gt. split; [split; [split|]|]; [lia..|]. destruct (N.eq_dec (nth 18 c 0%N) 0); [now left|right; auto].
Qed.

(** * Numbers that were read fit in their fields *)
Definition is_byte (x : N) : Prop := (x < 256)%N.
Fixpoint bytes_of (t : ty) (v : value) : Prop :=
  match t, v with
  | TFix n, VFix b => length b = n /\ Forall is_byte b
  | TStr, VStr _ => True
  | TVec t', VVec l => Forall (bytes_of t') l
  | TUnit, VUnit => True
  | TField _ t' r, VField x y => bytes_of t' x /\ bytes_of r y
  | _, _ => False
  end.
Lemma bytes_fresh : forall t, bytes_of t (fresh t).
Proof.
  induction t; cbn; try easy. split; [apply repeat_length|]. apply Forall_forall. intros x Hx. apply repeat_spec in Hx as ->. reflexivity.
Qed.
Lemma get_bytes n off mem b : Forall is_byte mem -> get n off mem = Some b -> length b = n /\ Forall is_byte b.
Proof.
  unfold get. destruct (Nat.leb_spec (off + n) (length mem)); [|discriminate]. intros F [= <-]. split.
  - rewrite firstn_length, skipn_length. lia.
  - rewrite Forall_forall in *. intros x Hx. apply F. rewrite <- (firstn_skipn off mem). apply in_or_app. right. rewrite <- (firstn_skipn n (skipn off mem)). apply in_or_app. now left.
Qed.
Lemma read_bytes mem : Forall is_byte mem -> forall t off old v o, bytes_of t old -> refl_read t mem off old = Some (v, o) -> bytes_of t v.
Proof.
  intros F. induction t as [n| |t IH| |i t IH r IHr]; intros off old v o Ho E; cbn [refl_read] in E.
  - destruct (get 1 off mem); [|discriminate]. destruct (get n (off + 1) mem) as [b|] eqn:G; [|discriminate]. injection E as <- _. cbn. now apply get_bytes in G.
  - destruct (get 1 off mem); [|discriminate]. destruct (get 8 (off + 1) mem); [|discriminate]. cbv zeta in E. destruct (get _ _ mem); [|discriminate]. now injection E as <- _.
  - destruct (get 1 off mem); [|discriminate]. destruct (get 8 (off + 1) mem) as [lb|]; [|discriminate]. cbv zeta in E. destruct (read_all _ _ _ _ _) as [l'|] eqn:R; [|discriminate]. injection E as <- _. cbn [bytes_of].
    assert (K : forall fuel stop off acc l', Forall (bytes_of t) acc -> read_all fuel (fun o => refl_read t mem o (fresh t)) stop off acc = Some l' -> Forall (bytes_of t) l').
    { induction fuel as [|fuel IHf]; intros stop of acc m A R'; cbn in R'; [discriminate|]. destruct (stop <=? of); [now injection R' as <-|]. destruct (refl_read t mem of (fresh t)) as [[x o']|] eqn:X; [|discriminate].
      apply IHf in R'; [exact R'|]. apply Forall_app. split; [exact A|]. constructor; [|constructor]. eapply IH; [apply bytes_fresh|exact X]. }
    apply K in R; [exact R|]. destruct old; try easy.
  - injection E as <- _. exact I.
  - destruct old as [| | | |x y]; try easy. cbn in Ho. destruct Ho as [H1 H2]. destruct (refl_read t mem off x) as [[x' o1]|] eqn:X; [|discriminate]. destruct (refl_read r mem o1 y) as [[y' o2]|] eqn:Y; [|discriminate].
    injection E as <- _. split; [now apply IH in X|now apply IHr in Y].
Qed.
Lemma de_fits b : Forall is_byte b -> fits (length b) (de b).
Proof.
  unfold fits. induction 1 as [|x b H _ IH]; [reflexivity|]. cbn [length de]. rewrite Nat2N.inj_succ, N.pow_succ_r'. unfold is_byte in H. lia.
Qed.
Lemma fields_fit w : forall i v, bytes_of (fields_of i (map TFix w)) v -> Forall2 fits w (map onum (ofields v)).
Proof.
  induction w as [|k w IH]; intros i v H; cbn [map fields_of] in H; destruct v as [| | | |x y]; try easy; cbn [ofields map]; [constructor|]. destruct H as [H1 H2]. constructor; [|now apply IH in H2].
  destruct x; try easy. destruct H1 as [<- H1]. now apply de_fits.
Qed.
Lemma at_typed : forall l i k t v, bytes_of (fields_of i l) v -> nth_error l k = Some t -> bytes_of t (at_ k v).
Proof.
  induction l as [|u l IH]; intros i k t v H E; [now destruct k|]. cbn [fields_of] in H. destruct v as [| | | |x y]; try easy. destruct H as [H1 H2]. destruct k as [|k]; cbn in E; [injection E as <-; exact H1|].
  change (at_ (S k) (VField x y)) with (at_ k y). now apply IH with (1 := H2).
Qed.
Lemma cfg_fits b s : Forall is_byte b -> holds b s -> Forall2 fits cfg_widths (ps_cfg s).
Proof.
  intros F (v & R & <-). unfold u_read in R. destruct (refl_read ty_pl b 0 (fresh ty_pl)) as [[v' o]|] eqn:E; [|discriminate]. injection R as ->. apply read_bytes in E; [|exact F|apply bytes_fresh].
  cbn [o_pl ps_cfg]. assert (E' := at_typed _ _ 5 _ _ E eq_refl). now apply fields_fit in E'.
Qed.
Lemma f2_nth {A B} (R : A -> B -> Prop) l m k a d : Forall2 R l m -> nth_error l k = Some a -> R a (nth k m d).
Proof. intros H. revert k. induction H as [|x y l m H _ IH]; intros [|k] E; cbn in *; try discriminate; [now injection E as <-|now apply IH]. Qed.
Lemma check_read b s : Forall is_byte b -> holds b s -> (cfg_check (ps_cfg s) = true <-> cfg_ok (ps_cfg s)).
Proof.
  intros F H. assert (W := cfg_fits b s F H). apply cfg_check_iff.
  - exact (f2_nth _ _ _ 0 4 0%N W eq_refl).
  - exact (f2_nth _ _ _ 1 4 0%N W eq_refl).
  - exact (f2_nth _ _ _ 2 4 0%N W eq_refl).
  - exact (f2_nth _ _ _ 10 8 0%N W eq_refl).
Qed.

(** * What is in the maps afterwards *)
Lemma kput_in {A} k (x : A) m y : In y (kput k x m) <-> (In y m /\ fst y <> k) \/ y = (k, x).
Proof.
  unfold kput. rewrite in_app_iff, filter_In, negb_true_iff. cbn [In]. split.
  - intros [[H1 H2]|[H|[]]]; [left; split; [exact H1|]|right; congruence]. now apply seqb_false in H2.
  - intros [[H1 H2]|H]; [left; split; [exact H1|]|right; left; congruence]. now apply seqb_neq.
Qed.
Lemma put_refl {A X} (mk : X -> str * A) l m : put_in mk l m m.
Proof. split; [easy|]. auto. Qed.
Lemma put_until {A X} (f : X -> list (str * A) -> res (list (str * A))) mk : (forall x m m', f x m = LOk m' -> m' = kput (fst (mk x)) (snd (mk x)) m) ->
  forall l m, put_in mk l m (snd (until (ends f) l m)).
Proof.
  intros H. induction l as [|x l IH]; intros m; [apply put_refl|]. cbn [until]. unfold ends at 1. destruct (f x m) as [m1| | |] eqn:E; cbn [and_then snd]; try apply put_refl. apply H in E. subst m1.
  destruct (IH (kput (fst (mk x)) (snd (mk x)) m)) as [I1 I2]. split.
  - intros y N. cbn [map In] in N. rewrite <- I1 by tauto. rewrite kput_in. split; [intros Hy; left; split; [exact Hy|]; intros Q; apply N; left; now symmetry|].
    intros [[Hy _]|Q]; [exact Hy|]. exfalso. apply N. left. rewrite Q. reflexivity.
  - intros y Hy. apply I2 in Hy as [Hy|(z & Hz & ->)]; [|right; exists z; split; [now right|easy]]. apply kput_in in Hy as [[Hy _]|Hy]; [now left|]. right. exists x. split; [now left|]. rewrite Hy. now destruct (mk x).
Qed.
(** When the loop ends well, the last of every key is there, and the only one. *)
Lemma put_until_ok {A X} (f : X -> list (str * A) -> res (list (str * A))) mk : (forall x m m', f x m = LOk m' -> m' = kput (fst (mk x)) (snd (mk x)) m) ->
  forall l m, fst (until (ends f) l m) = LOk tt -> NoDup (map (fun x => fst (mk x)) l) -> forall x, In x l -> forall y, fst y = fst (mk x) -> (In y (snd (until (ends f) l m)) <-> y = mk x).
Proof.
  intros H. induction l as [|z l IH]; intros m E N x Hx y Hy; [destruct Hx|]. cbn [until] in *. unfold ends at 1 in E. unfold ends at 1. destruct (f z m) as [m1| | |] eqn:Ez; cbn [and_then snd fst] in *; try discriminate E.
  apply H in Ez. subst m1. cbn [map] in N. inversion N as [|? ? N1 N2]; subst. destruct Hx as [<-|Hx]; [|now apply IH].
  destruct (put_until f mk H l (kput (fst (mk z)) (snd (mk z)) m)) as [P1 _]. rewrite <- P1 by (now rewrite Hy). rewrite kput_in. rewrite <- surjective_pairing. tauto.
Qed.
Lemma daemon_until reg : forall l m, exists k, snd (until (ends (load_daemon reg)) l m) = m ++ map (fun x => (fst x, snd x, 0)) (firstn k l) /\ (fst (until (ends (load_daemon reg)) l m) = LOk tt -> k = length l).
Proof.
  induction l as [|x l IH]; intros m; [exists 0; cbn; now rewrite app_nil_r|]. cbn [until]. unfold ends at 1 3, load_daemon at 1 3. destruct (reg (snd x)) as [[]|]; cbn [and_then snd fst]; try (exists 0; cbn; rewrite app_nil_r; split; [reflexivity|discriminate]).
  destruct (IH (m ++ [(fst x, snd x, 0)])) as (k & K1 & K2). exists (S k). rewrite K1. cbn [firstn map length]. rewrite <- app_assoc. split; [reflexivity|]. intros Q. now rewrite K2.
Qed.
Lemma ev_put reg : forall x m m', load_event reg x m = LOk m' -> m' = kput (fst x) (snd x, 0) m.
Proof. intros x m m'. unfold load_event. destruct (reg (snd x)) as [[]|]; try discriminate. now intros [= <-]. Qed.
Lemma pa_put reg : forall x m m', load_param reg x m = LOk m' -> m' = kput (fst x) (snd x, false, 0) m.
Proof. intros x m m'. unfold load_param. destruct (reg (snd x)) as [[]|]; try discriminate. now intros [= <-]. Qed.
Lemma st_put reg : forall x m m', load_stage reg x m = LOk m' -> m' = kput (fst x) (snd x, 0) m.
Proof. intros x m m'. unfold load_stage. destruct (reg (snd (snd x))) as [[]|]; try discriminate. now intros [= <-]. Qed.

(** * One shape for all outcomes *)
Section O.
Variables (reg : str -> option obj) (d2 : N * N).
Lemma load_onto_eq p b s : p_init p = false -> holds b s -> load_onto reg d2 p b =
  and_then (fst (left_elements reg (ps_els s)), mkPl false (p_els p ++ snd (left_elements reg (ps_els s))) (p_events p) (p_params p) (p_daemons p) (p_stages p) (p_cfg p) (p_cfg2 p) (p_engine p) (p_shared p))
    (fun q => let ev := until (ends (load_event reg)) (ps_events s) (p_events p) in let pa := until (ends (load_param reg)) (ps_params s) (p_params p) in
              let da := until (ends (load_daemon reg)) (ps_daemons s) (p_daemons p) in let sa := until (ends (load_stage reg)) (ps_stages s) (p_stages p) in
       and_then (plus (fst ev) (plus (fst pa) (plus (fst da) (fst sa))), mkPl false (p_els q) (snd ev) (snd pa) (snd da) (snd sa) (p_cfg p) (p_cfg2 p) (p_engine p) (p_shared p))
         (fun q => if cfg_check (ps_cfg s) then (LOk tt, mkPl false (p_els q) (p_events q) (p_params q) (p_daemons q) (p_stages q) (ps_cfg s) d2 (p_engine p) (p_shared p)) else (LThrow, q))).
Proof.
  intros I (v & R & <-). unfold load_onto. rewrite I, R. cbv zeta. destruct (left_elements reg (ps_els (o_pl v))) as [r h]. cbn [fst snd]. destruct r as [[]| | |]; cbn [and_then]; try reflexivity. cbn [p_events p_params p_daemons p_stages p_init p_els p_cfg p_cfg2 p_engine p_shared].
  destruct (until (ends (load_event reg)) _ _) as [r1 m1]. destruct (until (ends (load_param reg)) _ _) as [r2 m2]. destruct (until (ends (load_daemon reg)) _ _) as [r3 m3]. destruct (until (ends (load_stage reg)) _ _) as [r4 m4]. reflexivity.
Qed.
Lemma plus_ok a b : plus a b = LOk tt -> a = LOk tt /\ b = LOk tt.
Proof. destruct a as [[]| | |]; cbn; try discriminate. now split. Qed.
(** The state and the checks when it ends well. *)
Lemma load_ok p b s q : p_init p = false -> holds b s -> load_onto reg d2 p b = (LOk tt, q) ->
  fst (left_elements reg (ps_els s)) = LOk tt /\ fst (until (ends (load_event reg)) (ps_events s) (p_events p)) = LOk tt /\ fst (until (ends (load_param reg)) (ps_params s) (p_params p)) = LOk tt /\
  fst (until (ends (load_daemon reg)) (ps_daemons s) (p_daemons p)) = LOk tt /\ fst (until (ends (load_stage reg)) (ps_stages s) (p_stages p)) = LOk tt /\ cfg_check (ps_cfg s) = true /\
  q = mkPl false (p_els p ++ snd (left_elements reg (ps_els s))) (snd (until (ends (load_event reg)) (ps_events s) (p_events p))) (snd (until (ends (load_param reg)) (ps_params s) (p_params p)))
        (snd (until (ends (load_daemon reg)) (ps_daemons s) (p_daemons p))) (snd (until (ends (load_stage reg)) (ps_stages s) (p_stages p))) (ps_cfg s) d2 (p_engine p) (p_shared p).
Proof.
  intros I H E. rewrite (load_onto_eq p b s I H) in E. destruct (fst (left_elements reg (ps_els s))) as [[]| | |]; try discriminate E. cbn [and_then] in E. cbv zeta in E.
  destruct (plus _ _) as [[]| | |] eqn:Pl; try discriminate E. apply plus_ok in Pl as [P1 Pl]. apply plus_ok in Pl as [P2 Pl]. apply plus_ok in Pl as [P3 P4]. cbn [and_then] in E. destruct (cfg_check (ps_cfg s)); [|discriminate E].
  injection E as <-. do 6 (split; [assumption || reflexivity|]). reflexivity.
Qed.
(** What happens does not depend on the pipeline. *)
Lemma until_ends_ok {A B} (f : A -> B -> res B) (P : A -> Prop) : (forall x m, (P x -> exists m', f x m = LOk m') /\ (forall m', f x m = LOk m' -> P x)) -> forall l m, fst (until (ends f) l m) = LOk tt <-> Forall P l.
Proof.
  intros H. induction l as [|x l IH]; intros m; [cbn; split; [constructor|reflexivity]|]. cbn [until]. unfold ends at 1. destruct (H x m) as [H1 H2]. destruct (f x m) as [m'| | |]; cbn [and_then fst].
  - rewrite IH. split; [intros; constructor; eauto|]. now inversion 1.
  - split; [discriminate|]. inversion 1 as [|? ? Q _]; subst. destruct (H1 Q); discriminate.
  - split; [discriminate|]. inversion 1 as [|? ? Q _]; subst. destruct (H1 Q); discriminate.
  - split; [discriminate|]. inversion 1 as [|? ? Q _]; subst. destruct (H1 Q); discriminate.
Qed.
Lemma ev_ok l m : fst (until (ends (load_event reg)) l m) = LOk tt <-> Forall (fun x => reg (snd x) = Some OEvent) l.
Proof. apply until_ends_ok. intros x n. unfold load_event. split; [intros ->; eauto|]. intros m'. destruct (reg (snd x)) as [[]|]; try discriminate; reflexivity. Qed.
Lemma pa_ok l m : fst (until (ends (load_param reg)) l m) = LOk tt <-> Forall (fun x => reg (snd x) = Some OParam) l.
Proof. apply until_ends_ok. intros x n. unfold load_param. split; [intros ->; eauto|]. intros m'. destruct (reg (snd x)) as [[]|]; try discriminate; reflexivity. Qed.
Lemma da_ok l m : fst (until (ends (load_daemon reg)) l m) = LOk tt <-> Forall (fun x => reg (snd x) = Some ODaemon) l.
Proof. apply until_ends_ok. intros x n. unfold load_daemon. split; [intros ->; eauto|]. intros m'. destruct (reg (snd x)) as [[]|]; try discriminate; reflexivity. Qed.
Lemma sa_ok l m : fst (until (ends (load_stage reg)) l m) = LOk tt <-> Forall (fun x => reg (snd (snd x)) = Some OStage) l.
Proof. apply until_ends_ok. intros x n. unfold load_stage. split; [intros ->; eauto|]. intros m'. destruct (reg (snd (snd x))) as [[]|]; try discriminate; reflexivity. Qed.
Lemma load_ok_iff p b s : p_init p = false -> holds b s ->
  (fst (load_onto reg d2 p b) = LOk tt <-> fst (left_elements reg (ps_els s)) = LOk tt /\ Forall (fun x => reg (snd x) = Some OEvent) (ps_events s) /\ Forall (fun x => reg (snd x) = Some OParam) (ps_params s) /\
    Forall (fun x => reg (snd x) = Some ODaemon) (ps_daemons s) /\ Forall (fun x => reg (snd (snd x)) = Some OStage) (ps_stages s) /\ cfg_check (ps_cfg s) = true).
Proof.
  intros I H. split.
  - intros E. destruct (load_onto reg d2 p b) as [r q] eqn:L. cbn in E. subst r. apply (load_ok p b s q I H) in L as (L1 & L2 & L3 & L4 & L5 & L6 & _). rewrite ev_ok in L2. rewrite pa_ok in L3. rewrite da_ok in L4. rewrite sa_ok in L5. tauto.
  - intros (L1 & L2 & L3 & L4 & L5 & L6). rewrite (load_onto_eq p b s I H), L1. cbn [and_then]. cbv zeta. rewrite <- (ev_ok _ (p_events p)) in L2. rewrite <- (pa_ok _ (p_params p)) in L3. rewrite <- (da_ok _ (p_daemons p)) in L4. rewrite <- (sa_ok _ (p_stages p)) in L5.
    rewrite L2, L3, L4, L5. cbn [plus and_then]. now rewrite L6.
Qed.
Lemma same_pl_eta p : mkPl (p_init p) (p_els p) (p_events p) (p_params p) (p_daemons p) (p_stages p) (p_cfg p) (p_cfg2 p) (p_engine p) (p_shared p) = p.
Proof. now destruct p. Qed.
End O.
