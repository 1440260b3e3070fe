(** Model of ParallelService (parallel_service.go): the loop, one goroutine per handler, the counting channel [sema], and the
    part of Request and ReqContext the service uses. One step is one channel operation, one critical section of a request or
    one read of a field.

    Simplifications. The receive channel is a queue of unlimited length (its filling is BufferModel.v). A request is a number
    and is sent once; its mutex makes Respond, RespondFail and Context single steps; bookmarks other than the ReqContext are
    left out. Cancelling or expiring the handler's context inside Respond always returns (see C78). The three nested selects
    of the loop are one choice among the ready alternatives: the program prefers the exit channel when it is ready at the
    first attempt (SelModel.v has the three selects one by one). The generators and the log are left out. A handler's result is a code and the bytes its
    value is encoded to (request.go:155-163); a value that marshal.Write panics on is a panic of the handler. *)
From Coq Require Import List Bool Arith ZArith.
Import ListNotations.

Definition RcShutdown : Z := 65283.       (* 0xff03, response.go:21 *)
Definition RcInternalError : Z := 64514.  (* 0xfc02, response.go:23 *)
Definition RcTimeout : Z := 64771.        (* 0xfd03, response.go:28 *)

(** request.go:226-234 *)
Inductive rst := RNew | RPend | RFly | RDone.
(** parallel_service.go:104-121, for one request *)
Inductive hpc :=
| H0
| HRead                          (* :118 *)
| HRun                           (* inside serv.f *)
| HResp (c : Z) (b : list Z)     (* :119, request.go:155-171 *)
| HDone                          (* :111, request.go:208-213 *)
| HRel                           (* :113 *)
| HEnd.
(** parallel_service.go:45-102 *)
Inductive lpc :=
| LTop               (* :50-69 *)
| LGot (r : nat)     (* :71-86 *)
| LSem (r : nat)     (* :88-90 *)
| LBack              (* :92 *)
| LDrain             (* :97 *)
| LAns (r : nat).    (* :100 *)
Record st := mkSt {
  cap : nat; sema : nat;      (* capacity and contents of serv.sema *)
  q : list nat;               (* the receive channel *)
  lp : lpc;
  rs : nat -> rst;
  ln : nat -> bool;           (* the request's chain holds the ReqContext, and ReqContext.Request is not nil *)
  hp : nat -> hpc;
  stp : bool }.               (* Stop waits at s.exit <- true, service.go:155 *)
(** BF.New, parallel_service.go:17-35 *)
Definition p_init (n : nat) : st :=
  let n := if n =? 0 then 1 else n in mkSt n n [] LTop (fun _ => RNew) (fun _ => false) (fun _ => H0) false.

(** bookkeeping: a function changed at one argument *)
Definition upd {A} (f : nat -> A) (k : nat) (v : A) : nat -> A := fun i => if i =? k then v else f i.
(** bookkeeping: the state with one component replaced; the assignments of the steps below *)
Definition w_sema s v := mkSt (cap s) v (q s) (lp s) (rs s) (ln s) (hp s) (stp s).
Definition w_q s v := mkSt (cap s) (sema s) v (lp s) (rs s) (ln s) (hp s) (stp s).
Definition w_lp s v := mkSt (cap s) (sema s) (q s) v (rs s) (ln s) (hp s) (stp s).
Definition w_rs s r v := mkSt (cap s) (sema s) (q s) (lp s) (upd (rs s) r v) (ln s) (hp s) (stp s).
Definition w_ln s r v := mkSt (cap s) (sema s) (q s) (lp s) (rs s) (upd (ln s) r v) (hp s) (stp s).
Definition w_hp s r v := mkSt (cap s) (sema s) (q s) (lp s) (rs s) (ln s) (upd (hp s) r v) (stp s).
Definition w_stp s v := mkSt (cap s) (sema s) (q s) (lp s) (rs s) (ln s) (hp s) v.

(** bookkeeping: what can be observed from outside *)
Inductive obs :=
| OSend (r : nat)                        (* the request is in the queue of the service *)
| ORecv (r : nat)                        (* the service took it *)
| OStart (r : nat)                       (* its handler is called *)
| ORet (r : nat) (c : Z) (b : list Z)    (* the handler returned *)
| OPanic (r : nat)                       (* the handler panicked *)
| OFail (r : nat) (c : Z)                (* RespondFail from outside: cancel, timeout, ... *)
| ODone (r : nat) (c : Z) (b : list Z)   (* the requester's Respond gets this response *)
| OStop                                  (* Stop is called *)
| OExit.                                 (* the loop leaves *)
(** bookkeeping: the choices of the environment and of the scheduler *)
Inductive ev :=
| Send (r : nat) | Fail (r : nat) (c : Z) | Return (r : nat) (c : Z) (b : list Z) | Panic (r : nat) | Stop   (* outside *)
| Exit | Recv | Loop | H (r : nat).                                                                          (* the service *)
(** bookkeeping: observations and the state after a step *)
Definition result := (list obs * st)%type.
(** bookkeeping: a step without observation *)
Definition ok (s : st) : result := ([], s).

(** request.go:129-153 with request.go:196-206: on RcTimeout the ReqContext puts the request back in flight *)
Definition chain_response (s : st) (r : nat) (c : Z) (b : list Z) : result :=
  if ln s r && (c =? RcTimeout)%Z then ok s else ([ODone r c b], w_ln (w_rs s r RDone) r false).
(** request.go:155-171 *)
Definition respond (s : st) (r : nat) (c : Z) (b : list Z) : result :=
  match rs s r with RFly => chain_response s r c b | _ => ok s end.
(** request.go:173-179 *)
Definition respond_fail (s : st) (r : nat) (c : Z) : result :=
  match rs s r with RDone => ok s | _ => chain_response s r c [] end.

(** one step of the loop, parallel_service.go:45-102 *)
Definition step_loop (s : st) : result :=
  match lp s with
  | LGot r => match sema s with 0 => ok s | S k => ok (w_lp (w_sema s k) (LSem r)) end
  | LSem r =>      (* req.Context, request.go:215-221, 84-98 *)
      match rs s r with
      | RPend => ok (w_lp (w_hp (w_ln (w_rs s r RFly) r true) r HRead) LTop)
      | _ => ok (w_lp s LBack)
      end
  | LBack => if sema s <? cap s then ok (w_lp (w_sema s (S (sema s))) LTop) else ok s
  | LAns r => let '(o, s) := respond s r RcShutdown [] in (o, w_lp s LDrain)
  | LTop | LDrain => ok s
  end.
(** the next step of the goroutine of a request, parallel_service.go:17-35, 104-121 *)
Definition step_h (s : st) (r : nat) : result :=
  match hp s r with
  | H0 | HEnd | HRun => ok s
  | HRead => if ln s r then ([OStart r], w_hp s r HRun) else ok (w_hp s r HDone)
  | HResp c b => let '(o, s) := respond s r c b in (o, w_hp s r HDone)
  | HDone => let '(o, s) := if ln s r then respond_fail s r RcInternalError else ok s in (o, w_hp s r HRel)
  | HRel => if sema s <? cap s then ok (w_hp (w_sema s (S (sema s))) r HEnd) else ok s
  end.
(** one step: Send (service.go:123-148), a timeout or cancel, Loop (parallel_service.go:45-102), a handler (:104-121), Stop (service.go:150-156) *)
Definition step (s : st) (e : ev) : result :=
  match e with
  | Send r => match rs s r with RNew => ([OSend r], w_q (w_rs s r RPend) (q s ++ [r])) | _ => ok s end
  | Fail r c => let '(o, s) := respond_fail s r c in (OFail r c :: o, s)
  | Return r c b => match hp s r with HRun => ([ORet r c b], w_hp s r (HResp c b)) | _ => ok s end
  | Panic r => match hp s r with HRun => ([OPanic r], w_hp s r HDone) | _ => ok s end
  | Stop => if stp s then ok s else ([OStop], w_stp s true)
  | Exit =>
      if stp s then
        match lp s with
        | LTop => ([OExit], w_lp (w_stp s false) LDrain)
        | LGot r => let '(o, s) := respond_fail s r RcShutdown in (OExit :: o, w_lp (w_stp s false) LDrain)
        | _ => ok s
        end
      else ok s
  | Recv =>
      match q s, lp s with
      | r :: q', LTop => ([ORecv r], w_lp (w_q s q') (LGot r))
      | r :: q', LDrain => ([ORecv r], w_lp (w_q s q') (LAns r))
      | _, _ => ok s
      end
  | Loop => step_loop s
  | H r => step_h s r
  end.
(** bookkeeping: a schedule, event by event *)
Fixpoint run (s : st) (es : list ev) : list obs * st :=
  match es with
  | [] => ([], s)
  | e :: es => let '(o, s) := step s e in let '(o', s') := run s es in (o ++ o', s')
  end.
