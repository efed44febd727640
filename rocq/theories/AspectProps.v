(** C92: an aspect that was begun is finished. *)
From Verif Require Import AspectProofs.
From Coq Require Import Lia.
Local Open Scope nat_scope.
Local Open Scope list_scope.

Lemma request_open ask n loop fuel f l p l' p' o : fat ask true n loop fuel f (l, p) = ((l', p'), o) -> o <> NoFuel -> exists d, l' = l ++ d /\ open_series f n d.
Proof. intros E O. destruct (fat_spec ask n loop fuel f l p l' p' o E O) as (d & [X _] & K). exists d. split; [exact X|]. exact (process_open f p n loop d p' o K). Qed.

(** C92 (1): whatever the user code does, in one init, run or destroy of an element every aspect sees begin, finish, begin, finish, ...: no finish without
    its begin, no begin before the finish of the round before; at most the last begin has no finish. *)
Theorem C92_alternate ask n loop fuel f l p l' p' o i : fat ask true n loop fuel f (l, p) = ((l', p'), o) -> o <> NoFuel -> i < n ->
  exists d, l' = l ++ d /\ (finished (seen f i d) \/ left_open (seen f i d)).
Proof.
  intros E O L. destruct (request_open ask n loop fuel f l p l' p' o E O) as (d & -> & [_ (m & A) _ _]). exists d. split; [reflexivity|].
  destruct (A i L) as [H|[H|H]]; [left; exists m; exact H|right; exists m; exact H|left; exists (S m); exact H].
Qed.
(** User code for the examples: three aspects, the body runs twice; [bad_at c] fails. *)
Definition ok_resp : resp := mkR None st_default true.
Definition ex_ask (c0 : cb -> bool) (r0 : resp) : oracle := fun _ c => if c0 c then r0 else match c with CHold => mkR None st_default false | _ => ok_resp end.
Definition is_begin_1 (c : cb) : bool := match c with CAspect ABeginRun 1 _ => true | _ => false end.
Definition is_run (c : cb) : bool := match c with CBody => true | _ => false end.
Definition err : resp := mkR None (mkStatus (-1) "disk full"%string) false.
Definition exn : resp := mkR (Some (CExc "stop"%string)) st_default false.
Example C92_alternate_ex : exists l' , fat (ex_ask (fun _ => false) err) true 3 2 5 FRun ([], true) = ((l', true), Val st_default) /\
  seen FRun 0 l' = [true; false; true; false] /\ seen FRun 2 l' = [true; false; true; false].
Proof. eexists. split; [vm_compute; reflexivity|]. split; vm_compute; reflexivity. Qed.

(** C92 (2), in part: if in that request no user code throws and no begin reports an error, everything that was begun is finished, the same number of times
    for every aspect - also if the body reports an error. *)
Theorem C92_finished_partial ask n loop fuel f l p l' p' o : fat ask true n loop fuel f (l, p) = ((l', p'), o) -> o <> NoFuel ->
  exists d, l' = l ++ d /\ (Forall (fun e => ~ bad e) d -> exists m, forall i, i < n -> seen f i d = rounds m).
Proof. intros E O. destruct (request_open ask n loop fuel f l p l' p' o E O) as (d & -> & [F _ _ _]). exists d. split; [reflexivity|exact F]. Qed.
(** The body reports an error: the aspects are finished. *)
Example C92_finished_ex : exists l' o, fat (ex_ask is_run err) true 3 2 5 FRun ([], true) = ((l', true), o) /\ o <> NoFuel /\
  seen FRun 0 l' = [true; false] /\ seen FRun 2 l' = [true; false] /\ Forall (fun e => ~ bad e) l'.
Proof.
  eexists. eexists. split; [vm_compute; reflexivity|]. split; [discriminate|]. split; [reflexivity|]. split; [reflexivity|].
  repeat (constructor; [cbn; intros H; first [exact H|apply H; reflexivity]|]). constructor.
Qed.

(** C92 (2) is false in general. If the begin of aspect [j] reports an error or throws, then aspects 0 ... j stay begun without finish, also those whose own
    begin succeeded; the aspects after [j] are not begun. This holds for every element, every number of aspects and every user code. *)
Theorem C92_begin_refuted ask n loop fuel f l p l' p' o : fat ask true n loop fuel f (l, p) = ((l', p'), o) -> o <> NoFuel ->
  exists d, l' = l ++ d /\ forall j arg r, In (CAspect (begin_of f) j arg, r) d -> call_fate true r <> Fine ->
    (forall i, i < n -> i <= j -> left_open (seen f i d)) /\ (forall i, i < n -> j < i -> finished (seen f i d)).
Proof.
  intros E O. destruct (request_open ask n loop fuel f l p l' p' o E O) as (d & -> & [_ _ B _]). exists d. split; [reflexivity|].
  intros j arg r I K. destruct (B j arg r I K) as (m & S). split; intros i L J; specialize (S i L); destruct (Nat.leb_spec i j); try lia; exists m; exact S.
Qed.
Lemma rounds_even m : length (rounds m) = 2 * m. Proof. induction m as [|m IH]; cbn [rounds length]; lia. Qed.
Lemma open_not_finished b : left_open b -> ~ finished b.
Proof. intros (m & ->) (k & E). apply (f_equal (@length bool)) in E. rewrite app_length, !rounds_even in E. cbn in E. lia. Qed.
(** Aspect 0 has begun, with success; aspect 1 refuses; aspect 0 never hears of it. *)
Theorem C92_finished_refuted : exists ask n loop fuel l' o r,
  fat ask true n loop fuel FRun ([], true) = ((l', true), o) /\ o <> NoFuel /\
  In (CAspect ABeginRun 0 st_default, r) l' /\ call_fate true r = Fine /\ ~ finished (seen FRun 0 l') /\
  (forall c s, In (c, s) l' -> r_exc s = None).
Proof.
  exists (ex_ask is_begin_1 err), 3, 2, 5. eexists. eexists. exists ok_resp. split; [vm_compute; reflexivity|]. split; [discriminate|]. split; [right; right; left; reflexivity|].
  split; [reflexivity|]. split; [apply open_not_finished; exists 0; reflexivity|].
  intros c s I. cbn in I. repeat (destruct I as [I|I]; [injection I as <- <-; reflexivity|]). destruct I.
Qed.
(** If the body throws, no aspect is finished (for an exception of CGraph, they are told so by enterCrashed). *)
Theorem C92_throw_refuted ask n loop fuel f l p l' p' o : fat ask true n loop fuel f (l, p) = ((l', p'), o) -> o <> NoFuel ->
  exists d, l' = l ++ d /\ forall r, In (body_of f, r) d -> call_fate false r <> Fine -> forall i, i < n -> left_open (seen f i d).
Proof.
  intros E O. destruct (request_open ask n loop fuel f l p l' p' o E O) as (d & -> & [_ _ _ B]). exists d. split; [reflexivity|].
  intros r I K i L. destruct (B r I K) as (m & S). exists m. exact (S i L).
Qed.
Example C92_throw_ex : exists l' o, fat (ex_ask is_run exn) true 3 2 5 FRun ([], true) = ((l', true), o) /\ o <> NoFuel /\ In (CBody, exn) l' /\ call_fate false exn <> Fine /\
  seen FRun 0 l' = [true] /\ seen FRun 2 l' = [true].
Proof. eexists. eexists. split; [vm_compute; reflexivity|]. split; [discriminate|]. split; [do 5 right; left; reflexivity|]. split; [discriminate|]. split; reflexivity. Qed.

Print Assumptions C92_alternate.
Print Assumptions C92_finished_partial.
Print Assumptions C92_begin_refuted.
Print Assumptions C92_finished_refuted.
Print Assumptions C92_throw_refuted.
