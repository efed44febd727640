(** What passing parameters should mean: there are no pointers, everybody has values of their own. *)
From Verif Require Export PassModel.
From Coq Require Import Lia.
Local Open Scope nat_scope.
Local Open Scope list_scope.

(** Type and value of every object of the user and of every parameter held; how many aspects and daemons there are, and the keys *)
Record vst := mkV
  { v_var : nat -> option (nat * nat);
    v_own : who -> option (nat * nat);
    v_asp : nat -> nat; v_dae : nat; v_ev : list nat; v_st : list nat; v_loc : list (nat * nat);
    v_init : bool }.
Definition v_new : vst := mkV (fun _ => None) (fun _ => None) (fun _ => 0) 0 [] [] [] false.
Definition v_ref (v : vst) (r : ref) : option (nat * nat) :=
  match r with RVar n => v_var v n | RHold w => v_own v w | RNull => None end.
Definition v_with (v : vst) (own : who -> option (nat * nat)) : vst :=
  mkV (v_var v) own (v_asp v) (v_dae v) (v_ev v) (v_st v) (v_loc v) (v_init v).
(** [w] gets what clone makes of the value passed; null leaves what there is *)
Definition v_pass (cl : cloner) (v : vst) (w : who) (T : nat) (r : ref) : vst :=
  match v_ref v r with None => v | Some (ty, x) => v_with v (updw (v_own v) w (Some (T, cl T ty x))) end.
Definition v_there (v : vst) (w : who) : bool :=
  match w with
  | WAsp e k => Nat.ltb k (v_asp v e)
  | WDae k => Nat.ltb k (v_dae v)
  | WEv k => memb k (v_ev v)
  | WSt k => memb k (v_st v)
  | WLoc e k => pair_memb e k (v_loc v)
  end.
(** A new aspect *)
Definition v_aspect (cl : cloner) (v : vst) (e T : nat) (r : ref) : vst :=
  let v1 := v_pass cl v (WAsp e (v_asp v e)) T r in
  mkV (v_var v1) (v_own v1) (upd (v_asp v1) e (S (v_asp v1 e))) (v_dae v1) (v_ev v1) (v_st v1) (v_loc v1) (v_init v1).
(** What is seen when an object of type T is asked for *)
Definition v_typed (x : option (nat * nat)) (T : nat) (none : dans) : dans :=
  match x with None => none | Some (T', v) => if Nat.eqb T' T then AVal T' v else ANull end.
Definition v_seen (x : option (nat * nat)) : dans := match x with None => ANull | Some (T, v) => AVal T v end.

(** The calls; [None]: somebody writes through a null pointer *)
Definition v_step (cl : cloner) (all : list nat) (v : vst) (op : dop) : option (vst * dans) :=
  match op with
  | DVar n T x =>
      match v_var v n with
      | Some _ => Some (v, ANone)
      | None => Some (mkV (upd (v_var v) n (Some (T, x))) (v_own v) (v_asp v) (v_dae v) (v_ev v) (v_st v) (v_loc v) (v_init v), ADone)
      end
  | DDel n =>
      match v_var v n with
      | None => Some (v, ANone)
      | Some _ => Some (mkV (upd (v_var v) n None) (v_own v) (v_asp v) (v_dae v) (v_ev v) (v_st v) (v_loc v) (v_init v), ADone)
      end
  | DWrite r x =>
      match v_ref v r, r with
      | Some (T, _), RVar n => Some (mkV (upd (v_var v) n (Some (T, x))) (v_own v) (v_asp v) (v_dae v) (v_ev v) (v_st v) (v_loc v) (v_init v), ADone)
      | Some (T, _), RHold w => Some (v_with v (updw (v_own v) w (Some (T, x))), ADone)
      | _, _ => None
      end
  | DAspect e T r => if memb e all then Some (v_aspect cl v e T r, ADone) else Some (v, ANone)
  | DAspects es T r => (* every element that is named and belongs to the pipeline gets an aspect of its own; naming none means all *)
      if v_init v then Some (v, AThrow)
      else Some (fold_left (fun u e => v_aspect cl u e T r)
                   (filter (fun e => memb e all) (nodup Nat.eq_dec (match es with [] => all | _ => es end))) v, ADone)
  | DSetA e k T r => if v_there v (WAsp e k) then Some (v_pass cl v (WAsp e k) T r, ADone) else Some (v, ANone)
  | DPop e =>
      match v_init v, v_asp v e with
      | false, S k => Some (mkV (v_var v) (updw (v_own v) (WAsp e k) None) (upd (v_asp v) e k) (v_dae v) (v_ev v) (v_st v) (v_loc v) (v_init v), ADone)
      | _, _ => Some (v, ANull)
      end
  | DDaemon T r =>
      if v_init v then Some (v, AThrow)
      else let v1 := v_pass cl v (WDae (v_dae v)) T r in
           Some (mkV (v_var v1) (v_own v1) (v_asp v1) (S (v_dae v1)) (v_ev v1) (v_st v1) (v_loc v1) (v_init v1), ADone)
  | DSetD k T r => if v_there v (WDae k) then Some (v_pass cl v (WDae k) T r, ADone) else Some (v, ANone)
  | DEvent k T r => (* a key in use is refused *)
      if v_init v || memb k (v_ev v) then Some (v, AThrow)
      else let v1 := v_pass cl v (WEv k) T r in
           Some (mkV (v_var v1) (v_own v1) (v_asp v1) (v_dae v1) (v_ev v1 ++ [k]) (v_st v1) (v_loc v1) (v_init v1), ADone)
  | DStage k T r => (* a key in use keeps its stage *)
      if v_init v then Some (v, AThrow)
      else if memb k (v_st v) then Some (v, ADone)
      else let v1 := v_pass cl v (WSt k) T r in
           Some (mkV (v_var v1) (v_own v1) (v_asp v1) (v_dae v1) (v_ev v1) (v_st v1 ++ [k]) (v_loc v1) (v_init v1), ADone)
  | DLocal e k T r =>
      if memb e all then
        match v_init v, v_ref v r with
        | false, Some _ =>
            let v1 := v_pass cl v (WLoc e k) T r in
            Some (mkV (v_var v1) (v_own v1) (v_asp v1) (v_dae v1) (v_ev v1) (v_st v1)
                      (if pair_memb e k (v_loc v1) then v_loc v1 else (e, k) :: v_loc v1) (v_init v1), ADone)
        | _, _ => Some (v, AThrow)
        end
      else Some (v, ANone)
  | DGetA e k T => Some (v, if v_there v (WAsp e k) then v_typed (v_own v (WAsp e k)) T AThrow else ANone)
  | DGetE e k T => Some (v, v_typed (v_own v (WLoc e k)) T ANull)
  | DSee w => Some (v, if v_there v w then v_seen (v_own v w) else ANone)
  | DInit b => Some (mkV (v_var v) (v_own v) (v_asp v) (v_dae v) (v_ev v) (v_st v) (v_loc v) b, ADone)
  | DEnd => Some (mkV (v_var v) (fun _ => None) (fun _ => 0) 0 [] [] [] false, ADone)
  end.
Fixpoint v_run (cl : cloner) (all : list nat) (v : vst) (h : list dop) : option (vst * list dans) :=
  match h with
  | [] => Some (v, [])
  | op :: r =>
      match v_step cl all v op with
      | None => None
      | Some (v1, a) => match v_run cl all v1 r with None => None | Some (v2, l) => Some (v2, a :: l) end
      end
  end.

(** The call gives somebody the parameter this somebody holds already *)
Definition to_itself (op : dop) : Prop :=
  match op with
  | DSetA e k _ r => r = RHold (WAsp e k)
  | DSetD k _ r => r = RHold (WDae k)
  | DLocal e k _ r => r = RHold (WLoc e k)
  | _ => False
  end.
(** How many objects of the library exist: for every address that is no object of the user's variables, whether there is an object *)
Definition library_object (s : dst) (o : nat) : Prop := d_heap s o <> None /\ forall n, d_var s n <> Some o.
(** A history that never adds a stage with a key in use: the answers of the value semantics tell the keys *)
Fixpoint stage_keys_fresh (ks : list nat) (h : list dop) : Prop :=
  match h with
  | [] => True
  | DStage k _ _ :: r => ~ In k ks /\ stage_keys_fresh (k :: ks) r
  | DEnd :: r => stage_keys_fresh [] r
  | _ :: r => stage_keys_fresh ks r
  end.
(** The call changes the parameter of the k-th aspect of e, or removes the aspect *)
Definition touches (e k : nat) (op : dop) : Prop :=
  match op with
  | DWrite r _ => r = RHold (WAsp e k)
  | DSetA e' k' _ _ => e' = e /\ k' = k
  | DPop e' => e' = e
  | DEnd => True
  | _ => False
  end.
