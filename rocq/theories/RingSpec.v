(** Specification of the ring buffer used by one caller: a queue of at most c-1 messages. *)
From Verif Require Export RingModel.
Local Open Scope nat_scope.
Local Open Scope list_scope.

(** * Sequential use *)
Inductive rop := RPush (v : nat) (g : strategy) | RPop.
(** The bounded queue: contents after a history given newest first. *)
Definition q_push (c v : nat) (g : strategy) (q : list nat) : list nat :=
  if length q <? c - 1 then q ++ [v] else match g with SReplace => tl q ++ [v] | _ => q end.
Fixpoint q_after (c : nat) (h : list rop) : list nat :=
  match h with [] => [] | RPush v g :: r => q_push c v g (q_after c r) | RPop :: r => tl (q_after c r) end.
Inductive rans := RPushed (p : presult) | RGot (v : nat) | RTimeout.
Definition q_answer (c : nat) (q : list nat) (o : rop) : rans :=
  match o with
  | RPush _ g => RPushed (if length q <? c - 1 then PStored else match g with SWait => PBlocked | SReplace => PStored | SDrop => PDropped end)
  | RPop => match q with [] => RTimeout | x :: _ => RGot x end
  end.
Definition rb_do (s : rb) (o : rop) : option (rb * rans) :=
  match o with
  | RPush v g => match rb_push v g s with Some (s', p) => Some (s', RPushed p) | None => None end
  | RPop => match rb_pop s with
            | Some (s', None) => Some (s', RTimeout)
            | Some (s', Some (Some x)) => Some (s', RGot x)
            | _ => None
            end
  end.
Fixpoint rb_run (s : rb) (h : list rop) : option (rb * list rans) :=
  match h with
  | [] => Some (s, [])
  | o :: r => match rb_do s o with
              | Some (s1, a) => match rb_run s1 r with Some (s2, l) => Some (s2, a :: l) | None => None end
              | None => None
              end
  end.
