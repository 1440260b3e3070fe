(** Results of a MultiRequest, called by several goroutines: what they see. *)
From Coq Require Import List Bool Arith Lia.
Import ListNotations.
From Verif Require Import ResultsModel.

Definition reachable (r n : nat) (s : st) : Prop := exists ws, run (start r n) ws = Some s.
Definition leads (s s' : st) : Prop := exists ws, run s ws = Some s'.
Definition all_answered (s : st) : Prop := Forall (eq true) (answered s).
Definition is_asleep (s : st) (g : nat) : Prop := nth_error (callers s) g = Some CSleep.
(** how many goroutines wait in Results *)
Definition sleepers (s : st) : nat := length (filter asleep (callers s)).
(** at most one goroutine is in Results *)
Definition one_calls (s : st) : Prop := forall g h, nth_error (callers s) g <> Some COut -> nth_error (callers s) h <> Some COut ->
  g < length (callers s) -> h < length (callers s) -> g = h.
Fixpoint one_at_a_time (s : st) (ws : list who) : Prop :=
  match ws with [] => True | w :: ws => match step s w with None => False | Some s' => one_calls s' /\ one_at_a_time s' ws end end.
