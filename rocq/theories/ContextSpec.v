(** What users of a Context rely on. *)
From Coq Require Import List Bool Arith.
Import ListNotations.
From Verif Require Import ContextModel.

(** the cancelers registered and not removed since *)
Fixpoint pending_from (l : list nat) (t : list obs) : list nat :=
  match t with
  | [] => l
  | OAdd _ c :: t => pending_from (l ++ [c]) t
  | ORemove c :: t => pending_from (remove Nat.eq_dec c l) t
  | _ :: t => pending_from l t
  end.
Definition pending (t : list obs) : list nat := pending_from [] t.
(** the goroutines inside a call that registers something *)
Definition adding (t : list obs) (a : nat) : Prop := exists c, In (OAddCall a c) t /\ ~ In (OAddRet a c) t.
Definition internal (e : ev) : Prop := match e with Adder _ | Waiter _ | Canc _ => True | _ => False end.
(** no canceler is given to the context twice *)
Definition given (t : list obs) : list nat := flat_map (fun o => match o with OAddCall _ c => [c] | _ => [] end) t.
Definition fresh (t : list obs) : Prop := NoDup (given t).
(** WaitAll is not called while another call of it has not returned *)
Fixpoint one_waiter (s : st) (es : list ev) : Prop :=
  match es with
  | [] => True
  | e :: es => (forall k, e = Wait k -> forall j, wp s j = W0 \/ wp s j = WEnd) /\ one_waiter (snd (step s e)) es
  end.
