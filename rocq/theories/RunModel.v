(** Model of starting an endpoint (service.go:55-60, 90-101) while other goroutines start it too or send requests to it
    (service.go:123-148): any number of calls of Run(endpoint) and of Send, and the loops they start. One step is one access to a
    shared field, one request put into a channel or taken from one.

    Simplifications. The endpoint is run by Run(nil), not as a child (BalModel.v). The backlog is as long as needed and its
    goroutine is not seen: a request given to push is in the channel at once (BufferModel.v has the details); pushing to a
    backlog that was not made yet is a crash. Stop is left out (BufferModel.v, BalModel.v). Requests sent are new. The loop of an
    endpoint takes requests from the channel that ReceiveChan gave it, and asks for it anew each time, as the loops of /repo do
    (parallel_service.go:51-69, net/client/connection/connection.go:249-262). *)
From Coq Require Import List Bool Arith.
Import ListNotations.

(** where a call of Run or of Send is *)
Inductive pc :=
| PNew
| RTest                (* service.go:56, Runned *)
| RMake                (* :92 *)
| RAlone (c : nat)     (* :93 *)
| RInit (c : nat)      (* :94 *)
| RSet (c : nat)       (* :96 *)
| RGo                  (* :97-100 *)
| STest (r : nat)      (* :124 *)
| SAlone (r : nat)     (* :128 *)
| SPush (r : nat)      (* :147, and b.ch in buffer.go:53 *)
| PEnd.
(** where a goroutine in Loop is: about to call ReceiveChan (service.go:103-105), or waiting for a request in the channel it got *)
Inductive lpc := LNone | LAsk | LRecv (c : nat).
(** SimplePoint (service.go:66-74): b.ch, standalone, whether the backlog is made; the channels made so far and what is in them; the goroutines *)
Record st := mkSt {
  bch : option nat; alone : bool; made : bool;
  nch : nat; ch : nat -> list nat;
  nl : nat; lps : nat -> lpc;
  pcs : nat -> pc }.
(** an endpoint after Init, service.go:114-117 *)
Definition s_init : st := mkSt None false false 0 (fun _ => []) 0 (fun _ => LNone) (fun _ => PNew).
(** bookkeeping: a function changed at one argument *)
Definition upd {A} (f : nat -> A) (k : nat) (v : A) : nat -> A := fun i => if i =? k then v else f i.
(** bookkeeping: the state with one component replaced; the assignments of the steps below *)
Definition w_bch s v := mkSt v (alone s) (made s) (nch s) (ch s) (nl s) (lps s) (pcs s).
Definition w_alone s v := mkSt (bch s) v (made s) (nch s) (ch s) (nl s) (lps s) (pcs s).
Definition w_made s v := mkSt (bch s) (alone s) v (nch s) (ch s) (nl s) (lps s) (pcs s).
Definition w_nch s v := mkSt (bch s) (alone s) (made s) v (ch s) (nl s) (lps s) (pcs s).
Definition w_ch s c v := mkSt (bch s) (alone s) (made s) (nch s) (upd (ch s) c v) (nl s) (lps s) (pcs s).
Definition w_nl s v := mkSt (bch s) (alone s) (made s) (nch s) (ch s) v (lps s) (pcs s).
Definition w_lp s l v := mkSt (bch s) (alone s) (made s) (nch s) (ch s) (nl s) (upd (lps s) l v) (pcs s).
Definition w_pc s k v := mkSt (bch s) (alone s) (made s) (nch s) (ch s) (nl s) (lps s) (upd (pcs s) k v).

(** bookkeeping: what can be observed from outside *)
Inductive obs :=
| ORun (k : nat)           (* goroutine k calls Run *)
| ORan (k : nat)           (* Run returns: the endpoint is started *)
| ORunPanic (k : nat)      (* Run panics: "EndPoint already runned" *)
| OLoop                    (* a goroutine enters Loop *)
| OSend (k r : nat)        (* goroutine k calls Send of request r *)
| OSent (k r : nat)        (* Send returns *)
| OSendPanic (k r : nat)   (* Send panics: "EndPoint is not running" *)
| OCrash (k : nat)         (* Send meets an endpoint that is half made *)
| OTake (r : nat).         (* Loop gets the request *)
(** bookkeeping: the choices of the environment and of the scheduler *)
Inductive ev :=
| Run (k : nat) | Send (k r : nat)   (* calls *)
| Go (k : nat)                       (* a call goes on *)
| Loop (l : nat).                    (* a goroutine in Loop goes on *)
(** bookkeeping: observations and the state after a step *)
Definition result := (list obs * st)%type.
(** bookkeeping: a step without observation *)
Definition ok (s : st) : result := ([], s).
(** the next step of a call of Run (service.go:55-60, 90-101) or of Send (service.go:123-148); each case is a place of [pc] *)
Definition step_go (s : st) (k : nat) : result :=
  match pcs s k with
  | RTest => match bch s with Some _ => ([ORunPanic k], w_pc s k PEnd) | None => ok (w_pc s k RMake) end
  | RMake => ok (w_pc (w_nch s (S (nch s))) k (RAlone (nch s)))
  | RAlone c => ok (w_pc (w_alone s true) k (RInit c))
  | RInit c => ok (w_pc (w_made s true) k (RSet c))
  | RSet c => ok (w_pc (w_bch s (Some c)) k RGo)
  | RGo => ([OLoop; ORan k], w_pc (w_nl (w_lp s (nl s) LAsk) (S (nl s))) k PEnd)
  | STest r => match bch s with None => ([OSendPanic k r], w_pc s k PEnd) | Some _ => ok (w_pc s k (SAlone r)) end
  | SAlone r => if alone s then ok (w_pc s k (SPush r)) else ([OCrash k], w_pc s k PEnd)
  | SPush r =>
      match made s, bch s with
      | true, Some c => ([OSent k r], w_pc (w_ch s c (ch s c ++ [r])) k PEnd)
      | _, _ => ([OCrash k], w_pc s k PEnd)
      end
  | _ => ok s
  end.
(** the next step of a goroutine in Loop: ReceiveChan (service.go:103-105), or a request is received *)
Definition step_loop (s : st) (l : nat) : result :=
  match lps s l with
  | LAsk => match bch s with Some c => ok (w_lp s l (LRecv c)) | None => ok s end
  | LRecv c => match ch s c with [] => ok s | r :: q => ([OTake r], w_lp (w_ch s c q) l LAsk) end
  | LNone => ok s
  end.
(** one step: a call of Run (service.go:55) or Send (service.go:123) begins, a call goes on, a loop goes on *)
Definition step (s : st) (e : ev) : result :=
  match e with
  | Run k => match pcs s k with PNew => ([ORun k], w_pc s k RTest) | _ => ok s end
  | Send k r => match pcs s k with PNew => ([OSend k r], w_pc s k (STest r)) | _ => ok s end
  | Go k => step_go s k
  | Loop l => step_loop s l
  end.
(** bookkeeping: a schedule, event by event *)
Fixpoint run (s : st) (es : list ev) : result :=
  match es with
  | [] => ([], s)
  | e :: es => let '(o, s) := step s e in let '(o', s') := run s es in (o ++ o', s')
  end.
(** bookkeeping: a schedule from the initial state *)
Definition start (es : list ev) : result := run s_init es.
