(** Model of a MultiRequest whose Each is called any number of times (wait_group.go:120-141) while its requests are answered
    (Respond, wait_group.go:170-192). MultiModel.v and RoundModel.v have one call of Each per round.

    Simplifications. All requests were made before (w.r does not change); no Cancel, Expire, timer or context (MultiModel.v,
    RoundModel.v); one goroutine calls Each, one call after another. What is received from a channel is not taken out of the
    model's buffer, so a buffer is what was ever sent; that no send ever blocks even then is proved (C152_no_send_blocks). *)
From Coq Require Import List Bool Arith Lia.
Import ListNotations.

(** a channel of responses: what was sent, in order, and whether it is closed; make(chan *Response, w.r), wait_group.go:129 *)
Record chan := mkChan { buf : list nat; closed : bool }.
(** where a call of Respond is, wait_group.go:170-192. [RIdle]: not called yet; [RLock]: w.ch was nil; [RRead]: before evaluating w.ch
    of the send, line 185; [RSend k]: before sending on that channel; [RAdd]: before line 186; [RClose]: the counter was full, before
    evaluating w.ch of line 188; [RShut k]: before closing that channel; [RDone] *)
Inductive rpc := RIdle | RLock | RRead | RSend (k : nat) | RAdd | RClose | RShut (k : nat) | RDone.
(** where the caller of Each is, wait_group.go:120-141. [UOut]: no call under way; [UMake]: has the mutex, before line 129; [UMove l]:
    in the loop of line 131, [l] still to do; [UCheck]: before line 136; [UShut]: before line 137; [UFree]: before line 139 *)
Inductive upc := UOut | UMake | UMove (l : list nat) | UCheck | UShut | UFree.
(** the MultiRequest: w.responses, w.c, the channels made so far (w.ch is the last one, nil if there is none), the calls of Respond, the
    caller of Each, the channels it got, and whether a goroutine panicked (which ends the program). wait_group.go:50-64 *)
Record st := mkSt { held : list nat; c : nat; chs : list chan; rs : list rpc; u : upc; got : list nat; dead : bool }.
(** before any answer; wait_group.go:50-64 *)
Definition start (r : nat) : st := mkSt [] 0 [] (repeat RIdle r) UOut [] false.
(** w.r, wait_group.go:101 *)
Definition total (s : st) : nat := length (rs s).

(** bookkeeping: an element of a list replaced *)
Fixpoint put {A} (l : list A) (i : nat) (x : A) : list A :=
  match l, i with [], _ => [] | _ :: l, 0 => x :: l | y :: l, S i => y :: put l i x end.
(** bookkeeping: the index of w.ch *)
Definition cur (s : st) : nat := length (chs s) - 1.
(** bookkeeping: fields replaced *)
Definition at_r (s : st) i p := mkSt (held s) (c s) (chs s) (put (rs s) i p) (u s) (got s) (dead s).
Definition at_u (s : st) p := mkSt (held s) (c s) (chs s) (rs s) p (got s) (dead s).
Definition with_chs (s : st) x := mkSt (held s) (c s) x (rs s) (u s) (got s) (dead s).
Definition die (s : st) := mkSt (held s) (c s) (chs s) (rs s) (u s) (got s) true.
(** Go's send on a buffered channel of capacity w.r, as in wait_group.go:133 and 185: [None] blocks, a closed channel panics *)
Definition send (s : st) (k x : nat) (next : st -> st) : option st :=
  match nth_error (chs s) k with
  | None => None
  | Some ch =>
      if closed ch then Some (die s)
      else if total s <=? length (buf ch) then None
      else Some (next (with_chs s (put (chs s) k (mkChan (buf ch ++ [x]) false))))
  end.
(** Go's close, as in wait_group.go:137 and 188: closing a closed channel panics *)
Definition shut (s : st) (k : nat) (next : st -> st) : option st :=
  match nth_error (chs s) k with
  | None => None
  | Some ch => if closed ch then Some (die s) else Some (next (with_chs s (put (chs s) k (mkChan (buf ch) true))))
  end.
(** bookkeeping: whether Each has the mutex (what Respond does under the mutex, wait_group.go:172-183, is one step) *)
Definition locked (s : st) : bool := match u s with UOut => false | _ => true end.

(** one step of the Respond of request [i], wait_group.go:170-192 *)
Definition respond (s : st) (i : nat) : option st :=
  match nth_error (rs s) i with
  | None | Some RDone => None
  | Some RIdle => Some (at_r s i (match chs s with [] => RLock | _ => RRead end))
  | Some RLock =>
      if locked s then None
      else match chs s with
           | [] => Some (at_r (mkSt (held s ++ [i]) (S (c s)) [] (rs s) (u s) (got s) (dead s)) i RDone)
           | _ => Some (at_r s i RRead)
           end
  | Some RRead => Some (at_r s i (RSend (cur s)))
  | Some (RSend k) => send s k i (fun s => at_r s i RAdd)
  | Some RAdd =>
      Some (at_r (mkSt (held s) (S (c s)) (chs s) (rs s) (u s) (got s) (dead s)) i (if S (c s) =? total s then RClose else RDone))
  | Some RClose => Some (at_r s i (RShut (cur s)))
  | Some (RShut k) => shut s k (fun s => at_r s i RDone)
  end.
(** one step of the caller of Each, wait_group.go:120-141 *)
Definition each (s : st) : option st :=
  match u s with
  | UOut => Some (at_u s UMake)
  | UMake => Some (mkSt [] (c s) (chs s ++ [mkChan [] false]) (rs s) (UMove (held s)) (got s) (dead s))
  | UMove [] => Some (at_u s UCheck)
  | UMove (x :: l) => send s (cur s) x (fun s => at_u s (UMove l))
  | UCheck => Some (at_u s (if c s =? total s then UShut else UFree))
  | UShut => shut s (cur s) (fun s => at_u s UFree)
  | UFree => Some (mkSt (held s) (c s) (chs s) (rs s) UOut (got s ++ [cur s]) (dead s))
  end.
(** who moves: the call of Respond for a request, or the caller of Each. A panic ends the program. wait_group.go:120-141, 170-192 *)
Inductive who := R (i : nat) | U.
Definition step (s : st) (w : who) : option st :=
  if dead s then None else match w with R i => respond s i | U => each s end.
(** bookkeeping: a schedule *)
Fixpoint run (s : st) (ws : list who) : option st :=
  match ws with [] => Some s | w :: ws => match step s w with None => None | Some s' => run s' ws end end.
