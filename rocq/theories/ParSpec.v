(** What users of a ParallelService rely on. *)
From Coq Require Import List Bool Arith ZArith.
Import ListNotations.
From Verif Require Import ParModel.

(** the number of handlers a service created with BF{N: n} may run *)
Definition slots (n : nat) : nat := if n =? 0 then 1 else n.
(** the handlers that are running after t *)
Fixpoint running_from (l : list nat) (t : list obs) : list nat :=
  match t with
  | [] => l
  | OStart r :: t => running_from (r :: l) t
  | ORet r _ _ :: t | OPanic r :: t => running_from (remove Nat.eq_dec r l) t
  | _ :: t => running_from l t
  end.
Definition running (t : list obs) : list nat := running_from [] t.
(** the requests whose requester got a response *)
Definition completed (t : list obs) : list nat := flat_map (fun o => match o with ODone r _ _ => [r] | _ => [] end) t.
Definition answered (t : list obs) (r : nat) : Prop := exists c b, In (ODone r c b) t.
(** the steps of the service's own goroutines; those of handlers' code are not among them *)
Definition internal (e : ev) : Prop := match e with Exit | Recv | Loop | H _ => True | _ => False end.
Definition stuck (s : st) : Prop := forall e, internal e -> step s e = ([], s).
(** a schedule of the service's own steps in which every step does something *)
Fixpoint busy_run (s : st) (es : list ev) : Prop :=
  match es with
  | [] => True
  | e :: es => internal e /\ step s e <> ([], s) /\ busy_run (snd (step s e)) es
  end.
