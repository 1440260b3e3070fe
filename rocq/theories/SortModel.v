(** MultiResponse as a sort.Interface, and Sort (wait_group.go:29-48), for the responses of RoundModel.v: a response is
    given by its Id, which is the number of its request within the MultiRequest (wait_group.go:91, request.go:130-135).

    Simplifications: an Id has 32 bits, so this is about fewer than 2^32 requests. sort.Sort is not modelled: [Sort] is its
    contract, that it only swaps elements and leaves none after one it is Less than; any list it may leave is allowed. *)
From Coq Require Import List Bool Arith.
Import ListNotations.

(** Less, wait_group.go:33-35 *)
Definition Less (mr : list nat) (i j : nat) : bool :=
  match nth_error mr i, nth_error mr j with Some a, Some b => a <? b | _, _ => false end.
(** Swap, wait_group.go:37-39 *)
Definition Swap (mr : list nat) (i j : nat) : list nat :=
  map (fun k => nth (if k =? i then j else if k =? j then i else k) mr 0) (seq 0 (length mr)).
(** the swaps of sort.Sort, of positions below Len (wait_group.go:41-43) *)
Inductive Swaps : list nat -> list nat -> Prop :=
| swaps_none mr : Swaps mr mr
| swaps_one mr i j mr' : i < length mr -> j < length mr -> Swaps (Swap mr i j) mr' -> Swaps mr mr'.
(** Sort, wait_group.go:45-48 *)
Definition Sort (mr mr' : list nat) : Prop := Swaps mr mr' /\ forall i j, i < j < length mr' -> Less mr' j i = false.
