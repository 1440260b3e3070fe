(** What users of an endpoint's backlog rely on, in terms of the calls of Send and what reaches the worker channel. *)
From Coq Require Import List Bool Arith.
Import ListNotations.
From Verif Require Import BufferModel.

(** requests put into the worker channel by Send itself; by the backlog; in the order of either *)
Definition direct (t : list obs) : list rid := flat_map (fun o => match o with ODirect r => [r] | _ => [] end) t.
Definition handed (t : list obs) : list rid := flat_map (fun o => match o with OHand r => [r] | _ => [] end) t.
Definition given (t : list obs) : list rid := flat_map (fun o => match o with ODirect r | OHand r => [r] | _ => [] end) t.
(** requests that went to the backlog, in order; requests sent; Sends that returned; requests the worker got *)
Definition queued (t : list obs) : list rid := flat_map (fun o => match o with OQueue r => [r] | _ => [] end) t.
Definition sent (t : list obs) : list rid := flat_map (fun o => match o with OSend r => [r] | _ => [] end) t.
Definition returned (t : list obs) : list rid := flat_map (fun o => match o with OReturn r => [r] | _ => [] end) t.
Definition worked (t : list obs) : list rid := flat_map (fun o => match o with OWork r => [r] | _ => [] end) t.
(** a subsequence: some elements left out, order kept *)
Inductive subseq {A} : list A -> list A -> Prop :=
| sub_nil l : subseq [] l
| sub_keep x a b : subseq a b -> subseq (x :: a) (x :: b)
| sub_skip x a b : subseq a b -> subseq a (x :: b).

(** the steps of the goroutines in Send and of the buffer's goroutine *)
Definition internal (e : ev) : Prop := match e with Push _ | Loop => True | _ => False end.
Definition stuck (s : st) : Prop := forall e, internal e -> step s e = ([], Some s).
Fixpoint effective (s : st) (es : list ev) : Prop :=
  match es with
  | [] => True
  | e :: es => internal e /\ exists o s', step s e = (o, Some s') /\ s' <> s /\ effective s' es
  end.
