(** What users of a listening server rely on. *)
From Coq Require Import List Bool Arith.
Import ListNotations.
From Verif Require Import ListenModel.

(** what the program does by itself: everything but new connections, calls of Stop that have not begun, and what the
    network and the requests in progress do to a connection *)
Definition internal (s : st) (e : ev) : Prop :=
  match e with
  | Listen | Ctl | TakeStop | TakeConn _ | CGo _ => True
  | Stop k => sp s k <> SNew
  | _ => False
  end.
(** the program can do nothing by itself *)
Definition quiet (s : st) : Prop := forall e, internal s e -> step s e = ([], s).
(** steps that the program makes by itself *)
Fixpoint productive (s : st) (es : list ev) : Prop :=
  match es with
  | [] => True
  | e :: es => internal s e /\ step s e <> ([], s) /\ productive (snd (step s e)) es
  end.
(** Stop is called by at most one goroutine, once *)
Definition one_stop (es : list ev) : Prop := forall k, In (Stop k) es -> k = 0.
