(** Vocabulary for stopping a ParallelService. *)
From Coq Require Import List Bool Arith ZArith.
Import ListNotations.
From Verif Require Import ParModel ParSpec SelModel.

(** the handlers that were started, and the requests that were taken from the queue *)
Definition starts (t : list obs) : list nat := flat_map (fun o => match o with OStart r => [r] | _ => [] end) t.
Definition takes (t : list obs) : list nat := flat_map (fun o => match o with ORecv r => [r] | _ => [] end) t.
(** nothing that the service does by itself is possible *)
Definition at_rest (s : sst) : Prop := forall e, internal e -> sstep s e = ([], s).
(** the number of steps in a schedule in which the loop of the service does something *)
Definition of_loop (e : ev) : bool := match e with Exit | Recv | Loop => true | _ => false end.
Inductive loop_steps : sst -> list ev -> nat -> Prop :=
| ls_nil s : loop_steps s [] 0
| ls_loop s e es n : of_loop e = true -> sstep s e <> ([], s) -> loop_steps (snd (sstep s e)) es n -> loop_steps s (e :: es) (S n)
| ls_idle s e es n : sstep s e = ([], s) -> loop_steps s es n -> loop_steps s (e :: es) n
| ls_other s e es n : of_loop e = false -> loop_steps (snd (sstep s e)) es n -> loop_steps s (e :: es) n.
