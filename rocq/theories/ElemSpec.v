(** What processing an element should do, as a grammar of the calls to user code. Uses from the model only the
    vocabulary of calls and responses. *)
From Verif Require Import ElemModel.
From Coq Require Import Lia.
Local Open Scope nat_scope.
Local Open Scope list_scope.

(** Every response in [l] is the one the user code gives after [l0] and the calls before it. *)
Definition faithful (ask : oracle) (l0 l : log) : Prop :=
  forall a c r b, l = (a ++ (c, r) :: b)%list -> (exists f, c = CMark f) \/ r = ask (l0 ++ a)%list c.

(** How a call ends. [counts]: its status is looked at (prepareRun, begin aspects, ...). *)
Inductive fate := Fine | Error (s : status) | Exn (m : string) | Alien.
Definition call_fate (counts : bool) (r : resp) : fate :=
  match r_exc r with
  | Some (CExc m) => Exn m
  | Some Foreign => Alien
  | None =>
      if counts && (code (r_st r) <? 0)%Z then
        if (code (r_st r) =? -996)%Z then Exn (" | " ++ info (r_st r))%string else Error (r_st r)
      else Fine
  end.

(** The aspects are called in order 0, 1, ...: all [n] of them if all are fine, else up to the first that is not. *)
Definition aspect_calls (k : akind) (arg : status) (n : nat) (l : log) (o : fate) : Prop :=
  exists j, j <= n /\ map fst l = map (fun i => CAspect k i arg) (seq 0 j) /\
    ((j = n /\ o = Fine /\ Forall (fun e => call_fate (is_begin k) (snd e) = Fine) l) \/
     (exists l0 e, l = (l0 ++ [e])%list /\ Forall (fun e => call_fate (is_begin k) (snd e) = Fine) l0 /\
        call_fate (is_begin k) (snd e) = o /\ o <> Fine)).

(** The body, repeated while it succeeds and asks to be held. [st]: the status reported so far (no error: the default
    status); [o]: [Fine], or the exception that ended the loop. *)
Inductive body_calls : log -> status -> fate -> Prop :=
| bc_throw r : call_fate false r <> Fine -> body_calls [(CBody, r)] st_default (call_fate false r)
| bc_error r h : call_fate false r = Fine -> (code (r_st r) < 0)%Z ->
    body_calls [(CBody, r); (CHold, h)] (r_st r) (call_fate false h)
| bc_done r h : call_fate false r = Fine -> (0 <= code (r_st r))%Z -> call_fate false h <> Fine \/ r_flag h = false ->
    body_calls [(CBody, r); (CHold, h)] st_default (call_fate false h)
| bc_again r h l st o : call_fate false r = Fine -> (0 <= code (r_st r))%Z -> call_fate false h = Fine -> r_flag h = true ->
    body_calls l st o -> body_calls ((CBody, r) :: (CHold, h) :: l) st o.

(** One iteration: begin aspects, body, finish aspects (which are told the status). [o <> Fine]: left at once. *)
Inductive iteration (n : nat) : log -> status -> fate -> Prop :=
| it_begin l o : aspect_calls ABeginRun st_default n l o -> o <> Fine -> iteration n l st_default o
| it_body lb l st o : aspect_calls ABeginRun st_default n lb Fine -> body_calls l st o -> o <> Fine -> iteration n (lb ++ l) st o
| it_finish lb l st lf o : aspect_calls ABeginRun st_default n lb Fine -> body_calls l st Fine ->
    aspect_calls AFinishRun st n lf o -> iteration n (lb ++ l ++ lf) st o.

(** At most [k] iterations; before each one the state is read, and a state other than NORMAL ends the loop; so does an
    iteration that fails. *)
Inductive iterations (n : nat) : nat -> log -> status -> fate -> Prop :=
| its_end : iterations n 0 [] st_default Fine
| its_state k r : r_flag r = false -> iterations n (S k) [(CState, r)] st_default Fine
| its_next k r l1 l2 st o : r_flag r = true -> iteration n l1 st_default Fine -> iterations n k l2 st o ->
    iterations n (S k) ((CState, r) :: l1 ++ l2) st o
| its_last k r l st o : r_flag r = true -> iteration n l st o -> (code st < 0)%Z \/ o <> Fine ->
    iterations n (S k) ((CState, r) :: l) st o.

(** How the try block ends: with a status, with a CGraph exception (the status so far was [st]), with a foreign one. *)
Inductive fin := Done (s : status) | Crash (st : status) (m : string) | Out.
Definition leave (st : status) (o : fate) : fin :=
  match o with Fine => Done st | Error s => Done s | Exn m => Crash st m | Alien => Out end.

(** checkRunResult, asked a second time for the message when it reports an error. *)
Inductive check_calls (st : status) : log -> fin -> Prop :=
| cc_throw r : call_fate false r <> Fine -> check_calls st [(CCheck, r)] (leave st (call_fate false r))
| cc_ok r : call_fate false r = Fine -> (0 <= code (r_st r))%Z -> check_calls st [(CCheck, r)] (Done st)
| cc_err r r2 : call_fate false r = Fine -> (code (r_st r) < 0)%Z ->
    check_calls st [(CCheck, r); (CCheck, r2)]
      (match call_fate false r2 with Fine => Crash st (" | " ++ info (r_st r2))%string | o => leave st o end).

(** The calls of one run. [prepared]: prepareRun has already succeeded; the last argument: it has now. *)
Inductive run_calls (prepared : bool) (n loop : nat) : log -> bool -> fin -> Prop :=
| rc_prepare_stop r : prepared = false -> call_fate true r <> Fine ->
    run_calls prepared n loop [(CPrepare, r)] false
      (leave (match r_exc r with None => r_st r | Some _ => st_default end) (call_fate true r))
| rc_prepare_pos r lc d : prepared = false -> call_fate true r = Fine -> (0 < code (r_st r))%Z ->
    check_calls (r_st r) lc d -> run_calls prepared n loop ((CPrepare, r) :: lc) true d
| rc_stop lp l st o : (prepared = true /\ lp = [] \/ prepared = false /\ exists r, lp = [(CPrepare, r)] /\ call_fate true r = Fine /\ code (r_st r) = 0%Z) ->
    iterations n loop l st o -> o <> Fine ->
    run_calls prepared n loop (lp ++ l) true (leave st o)
| rc_run lp l st lc d : (prepared = true /\ lp = [] \/ prepared = false /\ exists r, lp = [(CPrepare, r)] /\ call_fate true r = Fine /\ code (r_st r) = 0%Z) ->
    iterations n loop l st Fine -> check_calls st lc d ->
    run_calls prepared n loop (lp ++ l ++ lc) true d.

(** The calls of init ([kb], [c], [kf] = begin-init aspects, init(), finish-init aspects) and of destroy. *)
Inductive simple_calls (kb kf : akind) (c : cb) (n : nat) : log -> fin -> Prop :=
| sc_begin l o : aspect_calls kb st_default n l o -> o <> Fine -> simple_calls kb kf c n l (leave st_default o)
| sc_throw l r st : aspect_calls kb st_default n l Fine -> call_fate false r <> Fine -> (0 <= code st)%Z ->
    simple_calls kb kf c n (l ++ [(c, r)]) (leave st (call_fate false r))
| sc_finish l r s lf o : aspect_calls kb st_default n l Fine -> call_fate false r = Fine ->
    code s = code (r_st r) -> ((code s < 0)%Z -> s = r_st r) -> aspect_calls kf s n lf o ->
    simple_calls kb kf c n (l ++ (c, r) :: lf) (leave s o).

(** The calls of one processing request (a visible element), and what the caller gets. *)
Definition try_calls (f : fntype) (prepared : bool) (n loop : nat) (l : log) (prepared' : bool) (d : fin) : Prop :=
  match f with
  | FRun => run_calls prepared n loop l prepared' d
  | FInit => simple_calls ABeginInit AFinishInit CInit n l d /\ prepared' = false
  | FDestroy => simple_calls ABeginDestroy AFinishDestroy CDestroy n l d /\ prepared' = prepared
  end.
(** After a CGraph exception the enter-crashed aspects are run. *)
Inductive process_calls (f : fntype) (prepared : bool) (n loop : nat) : log -> bool -> out status -> Prop :=
| pc_done l p s : try_calls f prepared n loop l p (Done s) -> process_calls f prepared n loop ((CMark f, r_none) :: l) p (Val s)
| pc_out l p : try_calls f prepared n loop l p Out -> process_calls f prepared n loop ((CMark f, r_none) :: l) p Escaped
| pc_crash l p st m la : try_calls f prepared n loop l p (Crash st m) -> aspect_calls AEnterCrashed st_default n la Fine ->
    process_calls f prepared n loop ((CMark f, r_none) :: l ++ la) p (Val (if (code st =? -996)%Z then st else mkStatus (-996) m))
| pc_crash_exn l p st m la m' : try_calls f prepared n loop l p (Crash st m) -> aspect_calls AEnterCrashed st_default n la (Exn m') ->
    process_calls f prepared n loop ((CMark f, r_none) :: l ++ la) p (Thrown m')
| pc_crash_out l p st m la : try_calls f prepared n loop l p (Crash st m) -> aspect_calls AEnterCrashed st_default n la Alien ->
    process_calls f prepared n loop ((CMark f, r_none) :: l ++ la) p Escaped.
