(** What callers of marshal.Read and sbox.ReadFirst rely on. *)
From Coq Require Import List Bool Arith ZArith.
Import ListNotations.
From Verif Require Import Base PrimModel RpoolModel.
Open Scope nat_scope.

(** the result of the program run alone on Readers of its own; None: a panic *)
Fixpoint alone {A} (d : dec A) (r : pair) : option A :=
  match d with DRet a => Some a | DBoom => None | DStep f g => alone (g r) (f r) end.
(** steps it takes *)
Fixpoint count {A} (d : dec A) (r : pair) : nat := match d with DStep f g => S (count (g r) (f r)) | _ => 1 end.
(** new Readers for the bytes b *)
Definition fresh (b : list Z) : pair := (mkRd b None, mkRd [] None).
