(** What users of a balancer rely on. *)
From Coq Require Import List Bool Arith.
Import ListNotations.
From Verif Require Import BalModel.

(** the children that were run, in order *)
Definition starts (t : list obs) : list nat := flat_map (fun o => match o with OStart c => [c] | _ => [] end) t.
(** the children whose Stop was called by the balancer, in order *)
Definition halts (t : list obs) : list nat := flat_map (fun o => match o with OHalt c => [c] | _ => [] end) t.
(** the requests that were accepted, and those that children took, in order *)
Definition sent (t : list obs) : list nat := flat_map (fun o => match o with OSent r => [r] | _ => [] end) t.
Definition taken (t : list obs) : list nat := flat_map (fun o => match o with OTake _ r => [r] | _ => [] end) t.

(** every AddChild that was called before has returned *)
Definition added (t : list obs) : Prop := forall k c, In (OAdd k c) t -> In (OAdded k c) t.
(** AddChild is called by one goroutine at a time, with a new child, not while Run is called, and after Run not before Loop has begun *)
Definition serial (t : list obs) : Prop := forall t1 x t2, t = t1 ++ x :: t2 ->
  match x with
  | OAdd _ c => added t1 /\ (forall k', ~ In (OAdd k' c) t1) /\ (In ORun t1 -> In OLoop t1)
  | ORun => added t1
  | _ => True
  end.
(** Stop is called once, after Run and when every AddChild has returned; AddChild is not called later; nobody else stops the children *)
Definition stops_once (t : list obs) : Prop := forall t1 x t2, t = t1 ++ x :: t2 ->
  match x with
  | OStop _ => In ORun t1 /\ added t1 /\ forall k', ~ In (OStop k') t1
  | OAdd _ _ => forall k', ~ In (OStop k') t1
  | OUStop _ => False
  | _ => True
  end.
(** what goes on by itself *)
Definition internal (e : ev) : Prop := match e with Go _ | Loop | Exit _ | Take => True | _ => False end.
Definition quiet (s : st) : Prop := forall e, internal e -> step s e = ([], s).
Fixpoint productive (s : st) (es : list ev) : Prop :=
  match es with
  | [] => True
  | e :: es => internal e /\ step s e <> ([], s) /\ productive (snd (step s e)) es
  end.
