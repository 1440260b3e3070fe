(** What users of a server with many connections rely on. *)
From Coq Require Import ZArith List Bool Arith.
Import ListNotations.
From Verif Require ListenModel ListenSpec ServerModel ServerSpec.
From Verif Require Import GraceModel.

(** what is observed of one connection; what is observed of the server *)
Definition of_conn (i : nat) (t : list obs) : list ServerModel.obs :=
  flat_map (fun o => match o with OC j o => if Nat.eqb j i then [o] else [] | OL _ => [] end) t.
Definition of_serv (t : list obs) : list ListenModel.obs := flat_map (fun o => match o with OL o => [o] | OC _ _ => [] end) t.

(** what the program does by itself: everything but new connections, calls of Stop that have not begun, the network and the handlers *)
Definition internal (s : st) (e : ev) : Prop :=
  match e with
  | EL (ListenModel.CGo _) => False
  | EL e => ListenSpec.internal (lst s) e
  | EC _ e => ServerSpec.internal e
  end.
(** two states alike *)
Definition same (s s' : st) : Prop := lst s' = lst s /\ forall i, con s' i = con s i.
(** the program can do nothing by itself *)
Definition quiet (s : st) : Prop := forall e, internal s e -> exists s', step s e = ([], Some s') /\ same s s'.
(** a schedule of steps that the program makes by itself and that do something *)
Fixpoint productive (s : st) (es : list ev) : Prop :=
  match es with
  | [] => True
  | e :: es => internal s e /\ exists o s', step s e = (o, Some s') /\ (o <> [] \/ ~ same s s') /\ productive s' es
  end.
(** Stop is called by at most one goroutine, once *)
Definition one_stop (es : list ev) : Prop := forall k, In (EL (ListenModel.Stop k)) es -> k = 0.
(** every request that connection i passed to its handler has been completed *)
Definition handled (i : nat) (t : list obs) : Prop :=
  forall r, In (OC i (ServerModel.OSend r)) t -> exists code body, In (OC i (ServerModel.OComp r code body)) t.
