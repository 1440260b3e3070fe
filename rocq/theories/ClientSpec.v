(** What users of a client endpoint rely on. *)
From Coq Require Import List Bool Arith ZArith.
Import ListNotations.
From Verif Require Import ClientModel.
Open Scope Z_scope.

(** connections the endpoint takes for usable, and connections it is waiting for *)
Definition known_up (t : list obs) (i : nat) : Prop := In (OUp i) t /\ ~ In (ODown i) t.
Definition awaited (t : list obs) (i : nat) : Prop := In (OOpen i) t /\ ~ In (OUp i) t /\ ~ In (ODialErr i) t.
(** n is the number of things with property P *)
Definition count_of (n : Z) (P : nat -> Prop) : Prop :=
  exists l, NoDup l /\ (forall i, In i l <-> P i) /\ n = Z.of_nat (length l).
(** connection i takes requests *)
Definition usable (s : st) (i : nat) : Prop := match cw (cn s i) with WTop | WSel1 | WSel2 | WReq => True | _ => False end.
(** connection i is between announcing itself and taking requests *)
Definition starting (s : st) (i : nat) : Prop := cl (cn s i) = LSet.
(** connection i has ended and the endpoint will be told *)
Definition ending (s : st) (i : nat) : Prop :=
  cw (cn s i) = WNote \/ cw (cn s i) = WMsg \/ In (i, KWrite) (ch s).
(** the number of connections asked for is never reduced, and the endpoint is not stopped *)
Fixpoint grows (n : Z) (es : list ev) : Prop :=
  match es with
  | [] => True
  | SetConns m :: es => n <= m /\ grows m es
  | Stop :: es => False
  | _ :: es => grows n es
  end.
(** the number of connections asked for last *)
Fixpoint configured (n : Z) (es : list ev) : Z :=
  match es with
  | [] => n
  | SetConns m :: es => configured m es
  | _ :: es => configured n es
  end.
(** connection i is being set up *)
Definition opening (t : list obs) (s : st) (i : nat) : Prop :=
  In (OOpen i) t /\ match cl (cn s i) with L0 | LDial | LSendErr | LSendOk | LSet => True | _ => False end.
(** the endpoint's loop does nothing any more, whatever happens: it starts and stops no connection, learns nothing, and does
    not end *)
Definition hung (s : st) : Prop := forall es t' s', run s es = (t', s') ->
  forall x, In x t' -> match x with OFlush _ => True | _ => False end.
(** the requests in flight on connection i are never failed *)
Definition never_flushed (s : st) (i : nat) : Prop := forall es t' s', run s es = (t', s') -> ~ In (OFlush i) t'.
(** its writer has ended, but for the report it still makes *)
Definition wdone (c : conn) : Prop := cw c = WMsg \/ cw c = WEnd.
Definition is_flush (i : nat) (x : obs) : bool := match x with OFlush j => (i =? j)%nat | _ => false end.
