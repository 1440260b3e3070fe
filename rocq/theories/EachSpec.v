(** A MultiRequest whose Each is called any number of times: what a user sees of it. *)
From Coq Require Import List Bool Arith Lia Permutation.
Import ListNotations.
From Verif Require Import EachModel.

(** every state that a schedule leads to, for any number of requests *)
Definition reachable (r : nat) (s : st) : Prop := exists ws, run (start r) ws = Some s.
Definition leads (s s' : st) : Prop := exists ws, run s ws = Some s'.

(** a call of Respond that has not begun or has ended *)
Definition resting (p : rpc) : Prop := p = RIdle \/ p = RDone.
(** nothing under way; every request answered *)
Definition over (s : st) : Prop := u s = UOut /\ Forall (eq RDone) (rs s).
(** a schedule in which no call of Each overlaps a call of Respond: one begins only when none of the other is under way *)
Definition apart (s : st) : Prop := u s = UOut \/ Forall resting (rs s).
Fixpoint tame (s : st) (ws : list who) : Prop :=
  match ws with [] => True | w :: ws => match step s w with None => False | Some s' => apart s' /\ tame s' ws end end.

(** the channel with this number: what was sent on it, and whether it is closed *)
Definition sent_on (s : st) (k : nat) : list nat := match nth_error (chs s) k with Some ch => buf ch | None => [] end.
Definition is_closed (s : st) (k : nat) : Prop := exists ch, nth_error (chs s) k = Some ch /\ closed ch = true.
(** everything that was sent on any channel *)
Definition sent (s : st) : list nat := concat (map buf (chs s)).
(** a goroutine that is about to send on a channel, and cannot *)
Definition blocked (s : st) : Prop :=
  (exists i k, nth_error (rs s) i = Some (RSend k) /\ step s (R i) = None) \/ (exists x l, u s = UMove (x :: l) /\ step s U = None).
