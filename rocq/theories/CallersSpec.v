(** Each called by several goroutines at once: what they see. *)
From Coq Require Import List Bool Arith Lia.
Import ListNotations.
From Verif Require Import EachModel EachSpec CallersModel.

Definition reachable2 (r n : nat) (s : sys) : Prop := exists ws, run2 (begin r n) ws = Some s.
(** nobody has the mutex in a call of Each while another call has still to return *)
Definition in_turn (s : sys) : Prop := forall j k, nth_error (callers s) j = Some (CRet k) -> u (base s) = UOut.
Fixpoint all_in_turn (s : sys) (ws : list who2) : Prop :=
  match ws with [] => True | w :: ws => match step2 s w with None => False | Some s' => in_turn s' /\ all_in_turn s' ws end end.
(** no call of Each is under way *)
Definition none_calls (s : sys) : Prop := Forall (eq COut) (callers s) /\ u (base s) = UOut.
(** a goroutine that sends on a channel of responses waits *)
Definition blocked2 (s : sys) : Prop :=
  (exists i k, nth_error (rs (base s)) i = Some (RSend k) /\ step2 s (WR i) = None) \/
  (exists j x l, nth_error (callers s) j = Some CIn /\ u (base s) = UMove (x :: l) /\ step2 s (WC j) = None).
