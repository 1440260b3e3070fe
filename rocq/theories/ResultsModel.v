(** Model of a MultiRequest whose Results is called by any number of goroutines, any number of times (wait_group.go:143-168), while its
    requests are answered (Respond, wait_group.go:170-183). MultiModel.v and RoundModel.v have one caller.

    Simplifications. All requests were made before (w.r does not change); Each is not called, so that Respond does all it does under the
    mutex, as one step; no Cancel, Expire, timer or context (MultiModel.v, RoundModel.v). Which of several waiting goroutines a Signal
    wakes is not said by the package sync: the schedule chooses. *)
From Coq Require Import List Bool Arith Lia.
Import ListNotations.

(** where a goroutine is: no call of Results under way; in w.w.Wait(), line 158; woken there, before it has the mutex again.
    wait_group.go:143-168 *)
Inductive cpc := COut | CSleep | CWoken.
(** w.responses; w.c; the bit mrWait of w.kind; which requests are answered; the callers; the calls that returned and what they
    returned, in order. wait_group.go:50-64 *)
Record st := mkSt { held : list nat; c : nat; waits : bool; answered : list bool; callers : list cpc; rets : list (list nat) }.
(** before any answer and call, [r] requests, [n] goroutines; wait_group.go:50-64 *)
Definition start (r n : nat) : st := mkSt [] 0 false (repeat false r) (repeat COut n) [].
(** w.r, wait_group.go:101 *)
Definition total (s : st) : nat := length (answered s).
(** bookkeeping: an element of a list replaced *)
Fixpoint put {A} (l : list A) (i : nat) (x : A) : list A :=
  match l, i with [], _ => [] | _ :: l, 0 => x :: l | y :: l, S i => y :: put l i x end.
(** bookkeeping: whether a goroutine is in Wait *)
Definition asleep (p : cpc) : bool := match p with CSleep => true | _ => false end.

(** w.w.Signal(), wait_group.go:178: one that waits is woken, if there is one; [g] is the choice *)
Definition signal (l : list cpc) (g : nat) : option (list cpc) :=
  if existsb asleep l then match nth_error l g with Some CSleep => Some (put l g CWoken) | _ => None end else Some l.
(** Respond to request [i], wait_group.go:170-183 *)
Definition respond (s : st) (i g : nat) : option st :=
  match nth_error (answered s) i with
  | Some false =>
      match (if (S (c s) =? total s) && waits s then signal (callers s) g else Some (callers s)) with
      | None => None
      | Some l => Some (mkSt (held s ++ [i]) (S (c s)) (waits s) (put (answered s) i true) l (rets s))
      end
  | _ => None
  end.
(** the end of Results, wait_group.go:160-167 *)
Definition finish (s : st) (g : nat) : st := mkSt [] (c s) (waits s) (answered s) (put (callers s) g COut) (rets s ++ [held s]).
(** one step of goroutine [g]: Results as far as Wait or to its end, wait_group.go:147-167; or from Wait to its end *)
Definition results (s : st) (g : nat) : option st :=
  match nth_error (callers s) g with
  | Some COut =>
      let s := mkSt (held s) (c s) true (answered s) (callers s) (rets s) in
      Some (if c s <? total s then mkSt (held s) (c s) true (answered s) (put (callers s) g CSleep) (rets s) else finish s g)
  | Some CWoken => Some (finish s g)
  | _ => None
  end.
(** who moves: the Respond to request [i], with the goroutine [g] a Signal chooses; or goroutine [g]. wait_group.go:143-183 *)
Inductive who := A (i g : nat) | G (g : nat).
Definition step (s : st) (w : who) : option st := match w with A i g => respond s i g | G g => results s g end.
(** bookkeeping: a schedule *)
Fixpoint run (s : st) (ws : list who) : option st :=
  match ws with [] => Some s | w :: ws => match step s w with None => None | Some s' => run s' ws end end.
