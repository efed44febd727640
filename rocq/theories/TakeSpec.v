(** Specification vocabulary for C118: what calls on elements mean, and which of them counts. *)
From Verif Require Export LockSpec.
Local Open Scope nat_scope.
Local Open Scope list_scope.

(** The call returned, without an error. *)
Definition taken (v : out status) : Prop := match v with Val st => (0 <= code st)%Z | _ => False end.
(** What an accepted call on [e] changes, setting by setting: [k] before, [k'] after. All other settings stay. *)
Definition changed (e : nat) (k k' : conf) (c : scall) : Prop :=
  let '(mkConf nm lp lv vi bi ti ho ma de ep asp fu) := k in
  match c with
  | SName n => k' = mkConf n lp lv vi bi ti ho ma de ep asp fu
  | SLoop n => k' = mkConf nm n lv vi bi ti ho ma de ep asp fu
  | SLevel z => k' = mkConf nm lp z vi bi ti ho ma de ep asp fu
  | SVisible b => k' = mkConf nm lp lv b bi ti ho ma de ep asp fu
  | SBind z => k' = mkConf nm lp lv vi z ti ho ma de ep asp fu
  | STimeout t h => k' = mkConf nm lp lv vi bi t h ma de ep asp fu
  | SMacro b => k' = mkConf nm lp lv vi bi ti ho b de ep asp fu
  | SDepend ds => exists de', k' = mkConf nm lp lv vi bi ti ho ma de' ep asp fu /\ forall d, In d de' <-> In d de \/ In d ds /\ d <> e
  | SRemove x => In x de /\ exists de', k' = mkConf nm lp lv vi bi ti ho ma de' ep asp fu /\ forall d, In d de' <-> In d de /\ d <> x
  | SEParam x v => exists ep', k' = mkConf nm lp lv vi bi ti ho ma de ep' asp fu /\ forall y, find (fun p => fst p =? y) ep' = if y =? x then Some (x, v) else find (fun p => fst p =? y) ep
  | SAspect a => k' = mkConf nm lp lv vi bi ti ho ma de ep (asp ++ [a]) fu
  | SFun x f => exists fu', k' = mkConf nm lp lv vi bi ti ho ma de ep asp fu' /\ forall y, find (fun p => fst p =? y) fu' = if y =? x then Some (x, f) else find (fun p => fst p =? y) fu
  end.
(** When a call on an element that is not initialised is accepted; [grp]: it is a group. *)
Definition acceptable (grp : bool) (k : conf) (c : scall) : Prop :=
  match c with
  | SLoop n => k_timeout k = 0%Z \/ n = 1%N
  | STimeout t _ => (t = 0 \/ 0 < t /\ (k_loop k <= 1)%N)%Z
  | SMacro _ => grp = false
  | SRemove d => In d (k_deps k)
  | _ => True
  end.

(** A history: the calls with their results. [said f e x]: call x is an accepted one on [e] which gives the value [f] finds in it. *)
Definition said {A} (f : scall -> option A) (e : nat) (x : lop * out status) (a : A) : Prop :=
  exists c, fst x = LSet e c /\ taken (snd x) /\ f c = Some a.
(** [a] is what the last such call gave; [d] when there is none. *)
Definition latest {A} (f : scall -> option A) (e : nat) (h : list (lop * out status)) (d a : A) : Prop :=
  (exists h1 x h2, h = h1 ++ x :: h2 /\ said f e x a /\ forall y b, In y h2 -> ~ said f e y b) \/
  (forall y b, In y h -> ~ said f e y b) /\ a = d.

Definition of_name c := match c with SName n => Some n | _ => None end.
Definition of_loop c := match c with SLoop n => Some n | _ => None end.
Definition of_level c := match c with SLevel z => Some z | _ => None end.
Definition of_visible c := match c with SVisible b => Some b | _ => None end.
Definition of_bind c := match c with SBind z => Some z | _ => None end.
Definition of_timeout c := match c with STimeout t _ => Some t | _ => None end.
Definition of_hold c := match c with STimeout _ h => Some h | _ => None end.
Definition of_macro c := match c with SMacro b => Some b | _ => None end.
(** The parameter under the key [x]; the function for the type [x]. *)
Definition of_eparam (x : nat) c := match c with SEParam y v => if y =? x then Some (Some v) else None | _ => None end.
Definition of_fun (x : nat) c := match c with SFun y v => if y =? x then Some (Some v) else None | _ => None end.
(** Does [e] depend on [d]? *)
Definition of_depend (e d : nat) c := match c with SDepend ds => if memb d ds && negb (d =? e) then Some true else None | SRemove y => if y =? d then Some false else None | _ => None end.
Definition found (x : nat) (m : list (nat * nat)) : option nat := match find (fun p => fst p =? x) m with Some p => Some (snd p) | None => None end.
(** The aspects added to [e], in order. *)
Definition aspects_of (e : nat) (h : list lop) : list nat :=
  flat_map (fun o => match o with LSet x (SAspect a) => if x =? e then [a] else [] | _ => [] end) h.
