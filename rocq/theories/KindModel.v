(** Model of the two questions that can be asked of a response, response.go:38-44. *)
From Coq Require Import ZArith.
From Verif Require Import RequestModel.
Open Scope Z_scope.

(** Response.Valid, response.go:38-40 *)
Definition Valid (code : Z) : bool := Z.land code RcKindMask =? RcOK.
(** Response.Restartable, response.go:42-44 *)
Definition Restartable (code : Z) : bool := Z.land code RcKindMask =? RcTemporary.
