(** Specification of loading a stored pipeline into a pipeline. *)
From Verif Require Export LoadModel StoreSpec.
Local Open Scope nat_scope.
Local Open Scope list_scope.

(** The bytes of the file are those of the stored pipeline [s]. *)
Definition holds (b : list N) (s : pst) : Prop := exists v, u_read ty_pl b (fresh ty_pl) = Some v /\ o_pl v = s.

(** [z] is the number whose object representation in [k] bytes, two's complement, is [n]. *)
Definition is_signed (k : nat) (n : N) (z : Z) : Prop :=
  (- 2 ^ (8 * Z.of_nat k - 1) <= z < 2 ^ (8 * Z.of_nat k - 1))%Z /\ (z mod 2 ^ (8 * Z.of_nat k) = Z.of_N n)%Z.
(** A configuration of the pool that makes sense: no negative numbers of threads, room for the threads of the start, a span for the monitor if there is one. *)
Definition cfg_ok (c : list N) : Prop :=
  exists primary secondary most span, is_signed 4 (nth 0 c 0%N) primary /\ is_signed 4 (nth 1 c 0%N) secondary /\ is_signed 4 (nth 2 c 0%N) most /\ is_signed 8 (nth 10 c 0%N) span /\
    (0 <= primary)%Z /\ (0 <= secondary)%Z /\ (primary + secondary <= most)%Z /\ (nth 18 c 0%N <> 0%N -> (0 < span)%Z).

(** The class creates an element of the stored type. *)
Definition makes (reg : str -> option obj) (t : st) : Prop := exists tmo, reg (t_cls t) = Some (OElement (t_type t) tmo).
(** Everything that is named in the stored pipeline exists and is of the right kind. *)
Record acceptable (reg : str -> option obj) (s : pst) : Prop := mkAcc {
  ac_cls : forall t, In t (ps_els s) -> makes reg t;
  ac_aspects : forall t c, In t (ps_els s) -> In c (t_aspects t) -> reg c = Some OAspect;
  ac_locals : forall t x, In t (ps_els s) -> In x (t_locals t) -> reg (snd x) = Some OPassed;
  ac_deps : forall t d, In t (ps_els s) -> In d (t_deps t) -> exists x, In x (ps_els s) /\ t_sess x = d;
  ac_kids : forall t, In t (ps_els s) -> t_kids t <> [] -> exists x, In x (ps_els s) /\ t_sess x = t_sess t /\ is_group (t_type x) = true;
  ac_events : forall x, In x (ps_events s) -> reg (snd x) = Some OEvent;
  ac_params : forall x, In x (ps_params s) -> reg (snd x) = Some OParam;
  ac_daemons : forall x, In x (ps_daemons s) -> reg (snd x) = Some ODaemon;
  ac_stages : forall x, In x (ps_stages s) -> reg (snd (snd x)) = Some OStage;
  ac_cfg : cfg_ok (ps_cfg s) }.

(** [m'] is [m] with some of [l] put in: under a key that [l] does not name all is as before, and what is new comes from [l]. *)
Definition put_in {A X} (mk : X -> str * A) (l : list X) (m m' : list (str * A)) : Prop :=
  (forall y, ~ In (fst y) (map (fun x => fst (mk x)) l) -> (In y m <-> In y m')) /\ (forall y, In y m' -> In y m \/ exists x, In x l /\ y = mk x).
(** [q] is [p] with things of the stored pipeline added: nothing of [p] but what has an equal key is gone. *)
Definition extends (s : pst) (p q : pl) : Prop :=
  p_init q = p_init p /\ (exists h, p_els q = p_els p ++ h /\ forall e, In e h -> exists t, In t (ps_els s) /\ e_sess e = t_sess t /\ e_type e = t_type t) /\
  put_in (fun x => (fst x, (snd x, 0))) (ps_events s) (p_events p) (p_events q) /\ put_in (fun x => (fst x, (snd x, false, 0))) (ps_params s) (p_params p) (p_params q) /\
  (exists k, p_daemons q = p_daemons p ++ map (fun x => (fst x, snd x, 0)) (firstn k (ps_daemons s))) /\ put_in (fun x => (fst x, (snd x, 0))) (ps_stages s) (p_stages p) (p_stages q) /\
  p_engine q = p_engine p /\ p_shared q = p_shared p.

(** The stored list of elements makes sense: sessions are not empty and different, groups are in the list, and the children a group names say so themselves. *)
Definition tidy (l : list st) : Prop :=
  NoDup (map t_sess l) /\ (forall t, In t l -> t_sess t <> []) /\ (forall t, In t l -> t_belong t <> [] -> In (t_belong t) (map t_sess l)) /\
  (forall g t, In g l -> In t l -> In (t_sess t) (t_kids g) -> t_belong t = t_sess g).
