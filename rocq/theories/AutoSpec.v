(** What users of an Auto rely on. *)
From Coq Require Import List Bool Arith.
Import ListNotations.
From Verif Require Import AutoModel.

(** no Get of the empty address, and nobody but the Auto stops its servers *)
Definition disciplined (es : list ev) : Prop := forall e, In e es -> match e with Get _ [] | Halt _ _ => False | _ => True end.
(** what goes on by itself: calls that have begun, and the loops of the servers taking messages *)
Definition internal (e : ev) : Prop := match e with Go _ | Next _ _ | Take _ => True | _ => False end.
Definition quiet (s : st) : Prop := forall e, internal e -> step s e = ([], s).
Fixpoint productive (s : st) (es : list ev) : Prop :=
  match es with
  | [] => True
  | e :: es => internal e /\ step s e <> ([], s) /\ productive (snd (step s e)) es
  end.
