(** A function offered by a server: its handlers decode the body of a request, apply the function and respond with the result. *)
From Coq Require Import ZArith List Bool.
Import ListNotations.
From Verif Require Import Base PrimModel CodecModel CallModel.
From Verif Require WireModel PairModel PairSpec.
Open Scope Z_scope.

(** the handler answered the bytes [q] with the bytes [b], where [q] stand for a value and [b] for the function of that value *)
Definition applied {T U : ty} (h : val T -> val U) (q b : list Z) : Prop :=
  exists v, Body_Read T q (zero T) = Ok (v, None) /\ body_of (DVal U (h v)) = Ok b.
(** whenever a handler of the server reports success, it has applied the function to what it was sent *)
Definition offers {T U : ty} (h : val T -> val U) (t : list PairModel.obs) : Prop :=
  forall k q b, In (k, q) (PairSpec.reads t) -> In (k, WireModel.RC_OK, b) (PairSpec.comps t) -> applied h (WireModel.q_body q) b.
(** the client can tell success from failure: return codes are sent, or there is no failure *)
Definition told (rc : WireModel.rctype) (t : list PairModel.obs) : Prop :=
  rc = WireModel.RC4 \/ forall k c b, In (k, c, b) (PairSpec.comps t) -> c = WireModel.RC_OK.
