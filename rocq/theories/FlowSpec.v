(** What the children of contexts must have, for calls on contexts to come to their end. *)
From Coq Require Import List.
Import ListNotations.
From Verif Require Import TreeModel.

(** Every call of Child has returned, and Done is called for no child before. *)
Definition children_made (tr : list obs) : Prop :=
  forall k p d, In (OChild k p d) tr -> In (OChildRet k p d) tr /\ forall a b, tr = a ++ ODone d :: b -> In (OChildRet k p d) a.
(** only goroutines in a call go on *)
Definition only_go (l : list ev) : Prop := Forall (fun e => exists k, e = EGo k) l.
(** goroutines in a call go on, and Done is called *)
Definition go_or_done (l : list ev) : Prop := Forall (fun e => (exists k, e = EGo k) \/ exists k d, e = EDone k d) l.
(** goroutine k is in a call and waits for another goroutine: its next step changes nothing *)
Definition waits (s : sys) (k : nat) : Prop := jb s k <> None /\ snd (step s (EGo k)) = s.
