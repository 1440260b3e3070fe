(** When the goroutines of a client connection and of a server connection have nothing left to do. *)
From Coq Require Import ZArith List Bool.
Import ListNotations.
From Verif Require Import Base WireModel WireSpec PairModel PairSpec.
From Verif Require HolderModel ServerModel ServerSpec.

(** what the library does by itself, once requests have been sent and handlers have answered: the client's write loop
    flushes, the two read loops read (of what has been written any part, in any pieces), the client's read loop hands
    over what it has read, and the goroutines of the server connection go on *)
Definition move (e : ev) : Prop :=
  match e with
  | CFlush | CRead _ | SRead _ | Client HolderModel.Deliver => True
  | Server x => ServerSpec.internal x
  | _ => False
  end.
Section Trip.
Variable rc : rctype.
Variable msg : HolderModel.rid -> Z.
Variable body : HolderModel.rid -> list Z.
Variable dial : bool.
Definition quiet (p : pair) : Prop := forall e, move e -> step rc msg body dial p e = ok p.
(** a schedule of moves in which each does something *)
Fixpoint effective (p : pair) (es : list ev) : Prop :=
  match es with
  | [] => True
  | e :: es => move e /\ exists o p', step rc msg body dial p e = (o, Some p') /\ p' <> p /\ effective p' es
  end.
End Trip.
(** the handler has the k-th request and has not completed it *)
Definition with_handler (t : list obs) (k : nat) : Prop :=
  In k (map fst (reads t)) /\ ~ In k (map (fun c => fst (fst c)) (comps t)).
