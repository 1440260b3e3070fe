(** Model of Each called by any number of goroutines at once (wait_group.go:120-141), on top of EachModel.v: the caller of that machine is
    here whoever has the mutex. New is what is outside of the mutex: line 139 unlocks, and line 140 evaluates w.ch afterwards.

    Simplifications: those of EachModel.v, except that there is more than one caller. *)
From Coq Require Import List Bool Arith Lia.
Import ListNotations.
From Verif Require Import EachModel.

(** where a goroutine is: no call under way; has the mutex, lines 124-139; before line 140, [k] (a ghost) being the channel that its call
    made. wait_group.go:120-141 *)
Inductive cpc := COut | CIn | CRet (k : nat).
(** a call that returned: the channel it made (a ghost), and the channel it returned; wait_group.go:129, 140 *)
Record ret := mkRet { its_own : nat; given : nat }.
(** the MultiRequest with its Responds, the goroutines that call Each, and the calls that returned; wait_group.go:50-64 *)
Record sys := mkSys { base : st; callers : list cpc; rets : list ret }.
(** before any answer and call, [r] requests, [n] goroutines; wait_group.go:50-64 *)
Definition begin (r n : nat) : sys := mkSys (start r) (repeat COut n) [].

(** one step of goroutine [j], wait_group.go:120-141: it takes the mutex if that is free, goes on under it, or returns w.ch *)
Definition call (s : sys) (j : nat) : option sys :=
  match nth_error (callers s) j with
  | None => None
  | Some COut =>
      if locked (base s) then None
      else match step (base s) U with None => None | Some b => Some (mkSys b (put (callers s) j CIn) (rets s)) end
  | Some CIn =>
      match step (base s) U with
      | None => None
      | Some b => Some (mkSys b (if locked b then callers s else put (callers s) j (CRet (cur (base s)))) (rets s))
      end
  | Some (CRet k) => if dead (base s) then None else Some (mkSys (base s) (put (callers s) j COut) (rets s ++ [mkRet k (cur (base s))]))
  end.
(** who moves: the Respond of a request, or a goroutine that calls Each; wait_group.go:120-141, 170-192 *)
Inductive who2 := WR (i : nat) | WC (j : nat).
Definition step2 (s : sys) (w : who2) : option sys :=
  match w with
  | WR i => match step (base s) (R i) with None => None | Some b => Some (mkSys b (callers s) (rets s)) end
  | WC j => call s j
  end.
(** bookkeeping: a schedule *)
Fixpoint run2 (s : sys) (ws : list who2) : option sys :=
  match ws with [] => Some s | w :: ws => match step2 s w with None => None | Some s' => run2 s' ws end end.
