(** Vocabulary for starting an endpoint. *)
From Coq Require Import List Bool Arith.
Import ListNotations.
From Verif Require Import RunModel.

(** the calls of Run do not overlap: when one begins, those before have returned or panicked *)
Definition one_by_one (t : list obs) : Prop :=
  forall t1 k t2 j t3, t = t1 ++ ORun k :: t2 ++ ORun j :: t3 -> In (ORan k) t2 \/ In (ORunPanic k) t2.
(** the requests whose Send returned, and those that Loop got, oldest first *)
Definition sent (t : list obs) : list nat := flat_map (fun o => match o with OSent _ r => [r] | _ => [] end) t.
Definition taken (t : list obs) : list nat := flat_map (fun o => match o with OTake r => [r] | _ => [] end) t.
(** how often Loop was entered *)
Definition loops (t : list obs) : nat := length (filter (fun o => match o with OLoop => true | _ => false end) t).
(** the calls of Run that returned *)
Definition ran (t : list obs) : list nat := flat_map (fun o => match o with ORan k => [k] | _ => [] end) t.
(** no goroutine can go on *)
Definition quiet (s : st) : Prop := (forall k, step s (Go k) = ok s) /\ (forall l, step s (Loop l) = ok s).
