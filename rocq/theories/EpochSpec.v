(** What users of Epoch rely on. Times are nanoseconds since the beginning of 2010. *)
From Coq Require Import List ZArith.
Import ListNotations.
From Verif Require Import TimerModel EpochModel.
Open Scope Z_scope.

(** what an Epoch and a Duration can hold: about 292 years either way *)
Definition fits (z : Z) : Prop := -9223372036854775808 <= z <= 9223372036854775807.
(** the call of After in the history that a firing belongs to: the n-th event of the trace is that of the n-th section *)
Definition called (ops : list top_c) (n x : nat) (clock d : Z) : Prop := nth_error ops n = Some (After x clock d).
Definition fired (tr : list tev) (n x : nat) (e now : Z) : Prop := nth_error tr n = Some (Fired x e now).
