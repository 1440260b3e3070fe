(** Children that their makers are done with. *)
From Coq Require Import List.
Import ListNotations.
From Verif Require Import TreeModel.

(** Done has been called for every child that Child was called for, and not before Child returned. *)
Definition children_done (tr : list obs) : Prop :=
  forall k p d, In (OChild k p d) tr -> In (ODone d) tr /\ forall a b, tr = a ++ ODone d :: b -> In (OChildRet k p d) a.
(** goroutine [k] calls and then runs, alone, until the call is over: n steps *)
Definition call_and_run (k : nat) (e : ev) (n : nat) : list ev := e :: repeat (EGo k) n.
