(** Model of MultiRequest (wait_group.go): the goroutine that issues the requests and then calls Results or Each
    once, the completions of the requests, goroutines calling Cancel or Expire (the context, the timer, the user),
    and the reader of the channel. One step is one access to shared memory, or a stretch of a critical section in
    which only data protected by the mutex is used.

    Simplifications. Memory is sequentially consistent. Requests are issued before Results or Each is called
    (doc.go), by one goroutine. A request is its index; its mutex is represented by the phase of its completion: it
    is completed once (RequestModel.v), and whoever calls Cancel or Expire on it while it is being completed waits
    (request.go:158-163). Response contents, the generator, the timer and the bit mrChan are left out; Cancel and
    Expire differ in the response code only. [slots] is one array although append may copy it: the program then sees
    fewer cleared entries. *)
From Coq Require Import List Bool Arith.
Import ListNotations.

(** Respond, wait_group.go:170-193, on behalf of one request *)
Inductive dpc :=
| D0     (* not completed *)
| D1     (* :171, load of w.ch *)
| D2     (* :172-173, 183 *)
| D3     (* :174-175 *)
| D4     (* :176-180 *)
| D5     (* :185 *)
| D6     (* :186 *)
| D7     (* :188 *)
| D8     (* :189-191 *)
| DD.
(** performFailAll and its callers, wait_group.go:195-231 *)
Inductive kpc :=
| KIdle
| KKind               (* :196 *)
| KTest               (* :197-199 *)
| KLock               (* :212-215 *)
| KLoop (i n : nat)   (* :217-218 *)
| KCall (i n : nat)   (* :219, the second load *)
| KReq (i n : nat)    (* request.go:158-163 *)
| KWait (i n : nat)
| KEnd.
(** mrResults or mrEach: wait_group.go:120-168 *)
Inductive mode := MResults | MEach.
Inductive opc :=
| O0
| OChk (i : nat)           (* :102 *)
| OReq (i : nat)           (* :103 *)
| OWaitReq (i : nat)
| OTest (m : mode)         (* :121-123, :144-146 *)
| OFail (m : mode) (k : kpc)
| OLock (m : mode)         (* :124, :147 *)
| R2                       (* :151 *)
| R3                       (* :158-159 *)
| RW | R4                  (* sync.Cond.Wait *)
| R5                       (* :161-167 *)
| E3                       (* :129 *)
| E4 (l : list nat)        (* :131-134 *)
| E5                       (* :135 *)
| E6                       (* :136 *)
| E7                       (* :137 *)
| OEnd.
(** MultiRequest, wait_group.go:50-64, and where its users are *)
Record st := mkSt {
  rn : nat;                (* w.r and len(w.requests) *)
  cn : nat;                (* w.c *)
  slots : nat -> bool;     (* requests[i] is not nil *)
  resp : list nat;         (* w.responses *)
  chan : option nat;       (* w.ch: its capacity *)
  chq : list nat; closed : bool;
  kfail : bool; kwait : bool;   (* w.kind *)
  lock : bool;
  sig : bool;              (* the waiting goroutine was signalled *)
  reg : bool;              (* the context still waits for the multi-request *)
  dp : nat -> dpc; kp : nat -> kpc; op : opc }.
(** NewMulti on a live context, context.go:163-176 *)
Definition m_init : st := mkSt 0 0 (fun _ => false) [] None [] false false false false false true (fun _ => D0) (fun _ => KIdle) O0.

(** bookkeeping: a function changed at one argument *)
Definition upd {A} (f : nat -> A) (k : nat) (v : A) : nat -> A := fun i => if i =? k then v else f i.
(** bookkeeping: the state with one component replaced; the assignments of the steps below *)
Definition w_rn s v := mkSt v (cn s) (slots s) (resp s) (chan s) (chq s) (closed s) (kfail s) (kwait s) (lock s) (sig s) (reg s) (dp s) (kp s) (op s).
Definition w_cn s v := mkSt (rn s) v (slots s) (resp s) (chan s) (chq s) (closed s) (kfail s) (kwait s) (lock s) (sig s) (reg s) (dp s) (kp s) (op s).
Definition w_slot s i v := mkSt (rn s) (cn s) (upd (slots s) i v) (resp s) (chan s) (chq s) (closed s) (kfail s) (kwait s) (lock s) (sig s) (reg s) (dp s) (kp s) (op s).
Definition w_resp s v := mkSt (rn s) (cn s) (slots s) v (chan s) (chq s) (closed s) (kfail s) (kwait s) (lock s) (sig s) (reg s) (dp s) (kp s) (op s).
Definition w_chan s v := mkSt (rn s) (cn s) (slots s) (resp s) v (chq s) (closed s) (kfail s) (kwait s) (lock s) (sig s) (reg s) (dp s) (kp s) (op s).
Definition w_chq s v := mkSt (rn s) (cn s) (slots s) (resp s) (chan s) v (closed s) (kfail s) (kwait s) (lock s) (sig s) (reg s) (dp s) (kp s) (op s).
Definition w_closed s v := mkSt (rn s) (cn s) (slots s) (resp s) (chan s) (chq s) v (kfail s) (kwait s) (lock s) (sig s) (reg s) (dp s) (kp s) (op s).
Definition w_kfail s v := mkSt (rn s) (cn s) (slots s) (resp s) (chan s) (chq s) (closed s) v (kwait s) (lock s) (sig s) (reg s) (dp s) (kp s) (op s).
Definition w_kwait s v := mkSt (rn s) (cn s) (slots s) (resp s) (chan s) (chq s) (closed s) (kfail s) v (lock s) (sig s) (reg s) (dp s) (kp s) (op s).
Definition w_lock s v := mkSt (rn s) (cn s) (slots s) (resp s) (chan s) (chq s) (closed s) (kfail s) (kwait s) v (sig s) (reg s) (dp s) (kp s) (op s).
Definition w_sig s v := mkSt (rn s) (cn s) (slots s) (resp s) (chan s) (chq s) (closed s) (kfail s) (kwait s) (lock s) v (reg s) (dp s) (kp s) (op s).
Definition w_reg s v := mkSt (rn s) (cn s) (slots s) (resp s) (chan s) (chq s) (closed s) (kfail s) (kwait s) (lock s) (sig s) v (dp s) (kp s) (op s).
Definition w_dp s i v := mkSt (rn s) (cn s) (slots s) (resp s) (chan s) (chq s) (closed s) (kfail s) (kwait s) (lock s) (sig s) (reg s) (upd (dp s) i v) (kp s) (op s).
Definition w_kp s k v := mkSt (rn s) (cn s) (slots s) (resp s) (chan s) (chq s) (closed s) (kfail s) (kwait s) (lock s) (sig s) (reg s) (dp s) (upd (kp s) k v) (op s).
Definition w_op s v := mkSt (rn s) (cn s) (slots s) (resp s) (chan s) (chq s) (closed s) (kfail s) (kwait s) (lock s) (sig s) (reg s) (dp s) (kp s) v.

(** bookkeeping: what can be observed from outside *)
Inductive obs :=
| OIssued (i : nat)        (* Request returned request i *)
| OPerform (i : nat)       (* request i is completed: its Respond begins *)
| OResult (l : list nat)   (* Results returned these responses, by index *)
| OEach                    (* Each returned *)
| ORecv (i : nat)          (* the reader got a response *)
| OEOF                     (* the reader saw the end of the channel *)
| OCancelled (k : nat)     (* Cancel or Expire returned *)
| OPanicSend | OPanicClose | OPanicNil.
(** bookkeeping: the choices of the environment and of the scheduler *)
Inductive ev :=
| Issue | Results | Each       (* the user *)
| Answer (i : nat)             (* the network or the endpoint completes request i *)
| Cancel (k : nat)             (* a call of Cancel or Expire begins *)
| Take                         (* the reader receives from the channel *)
| Resp (i : nat) | Canc (k : nat) | Owner.
(** bookkeeping: observations and the state after a step *)
Definition result := (list obs * option st)%type.
(** bookkeeping: a step without observation *)
Definition ok (s : st) : result := ([], Some s).

(** wait_group.go:170-193 *)
Definition step_resp (s : st) (i : nat) : result :=
  match dp s i with
  | D0 | DD => ok s
  | D1 => ok (w_dp s i (match chan s with None => D2 | _ => D5 end))
  | D2 => if lock s then ok s
          else match chan s with None => ok (w_dp (w_lock s true) i D3) | _ => ok (w_dp s i D5) end
  | D3 => ok (w_dp (w_slot (w_resp s (resp s ++ [i])) i false) i D4)
  | D4 =>
      let s := w_cn s (S (cn s)) in
      let s := if (cn s =? rn s) && kwait s then w_sig s true else s in
      ok (w_dp (w_lock s false) i DD)
  | D5 =>
      if closed s then ([OPanicSend], None)
      else match chan s with
           | Some n => if length (chq s) <? n then ok (w_dp (w_chq s (chq s ++ [i])) i D6) else ok s
           | None => ok s    (* a nil channel; not reached *)
           end
  | D6 => let s := w_cn s (S (cn s)) in ok (w_dp s i (if cn s =? rn s then D7 else DD))
  | D7 => if closed s then ([OPanicClose], None) else ok (w_dp (w_closed s true) i D8)
  | D8 => ok (w_dp (w_reg s false) i DD)
  end.
(** r.Cancel() or r.Expire(): the completion starts now, or it has started; request.go:51-57, 173-179 *)
Definition fail_req (s : st) (i : nat) : list obs * st :=
  match dp s i with D0 => ([OPerform i], w_dp s i D1) | _ => ([], s) end.
(** wait_group.go:195-231: one step of a goroutine in Cancel, Expire or performFailAll *)
Inductive kres := KPanic | KBlock | KNext (o : list obs) (s : st) (k : kpc).
(** the next step of performFailAll and performFail, wait_group.go:211-231 *)
Definition step_fail (s : st) (k : kpc) : kres :=
  match k with
  | KIdle | KEnd => KBlock
  | KKind => KNext [] (w_kfail s true) KTest
  | KTest => KNext [] s (if cn s =? rn s then KEnd else KLock)
  | KLock => if lock s then KBlock else KNext [] s (KLoop 0 (rn s))
  | KLoop i n => if i <? n then KNext [] s (if slots s i then KCall i n else KLoop (S i) n) else KNext [] s KEnd
  | KCall i n => if slots s i then KNext [] s (KReq i n) else KPanic
  | KReq i n => let '(o, s) := fail_req s i in KNext o s (KWait i n)
  | KWait i n => match dp s i with DD => KNext [] s (KLoop (S i) n) | _ => KBlock end
  end.
(** the next step of Cancel or Expire, wait_group.go:195-231 *)
Definition step_canc (s : st) (k : nat) : result :=
  match kp s k with
  | KIdle | KEnd => ok s
  | p => match step_fail s p with
         | KPanic => ([OPanicNil], None)
         | KBlock => ok s
         | KNext o s' KEnd => (o ++ [OCancelled k], Some (w_kp s' k KEnd))
         | KNext o s' p' => (o, Some (w_kp s' k p'))
         end
  end.
(** wait_group.go:81-106, 120-168 *)
Definition step_owner (s : st) : result :=
  match op s with
  | O0 | OEnd => ok s
  | OChk i => if kfail s then ok (w_op s (OReq i)) else ([OIssued i], Some (w_op s O0))
  | OReq i => let '(o, s) := fail_req s i in (o, Some (w_op s (OWaitReq i)))
  | OWaitReq i => match dp s i with DD => ([OIssued i], Some (w_op s O0)) | _ => ok s end
  | OTest m => ok (w_op s (if kfail s && negb (cn s =? rn s) then OFail m KLock else OLock m))
  | OFail m KEnd => ok (w_op s (OLock m))
  | OFail m k =>
      match step_fail s k with
      | KPanic => ([OPanicNil], None)
      | KBlock => ok s
      | KNext o s k => (o, Some (w_op s (OFail m k)))
      end
  | OLock m => if lock s then ok s else ok (w_op (w_lock s true) (match m with MResults => R2 | MEach => E3 end))
  | R2 => ok (w_op (w_kwait s true) R3)
  | R3 => if cn s <? rn s then ok (w_op (w_lock (w_sig s false) false) RW) else ok (w_op s R5)
  | RW => if sig s then ok (w_op s R4) else ok s
  | R4 => if lock s then ok s else ok (w_op (w_lock s true) R5)
  | R5 => ([OResult (resp s)], Some (w_op (w_lock (w_reg (w_resp s []) false) false) OEnd))
  | E3 => ok (w_op (w_chan s (Some (rn s))) (E4 (resp s)))
  | E4 [] => ok (w_op s E5)
  | E4 (x :: l) =>
      if closed s then ([OPanicSend], None)
      else if length (chq s) <? rn s then ok (w_op (w_chq (w_slot s x false) (chq s ++ [x])) (E4 l)) else ok s
  | E5 => ok (w_op (w_resp s []) E6)
  | E6 => if cn s =? rn s then ok (w_op s E7) else ([OEach], Some (w_op (w_lock s false) OEnd))
  | E7 => if closed s then ([OPanicClose], None) else ([OEach], Some (w_op (w_lock (w_closed s true) false) OEnd))
  end.
(** one step: of the goroutine that makes the requests and calls Results or Each (wait_group.go:82-168), of a completion (wait_group.go:170-192), of a
    call of Cancel or Expire (wait_group.go:194-227), or of the reader of the channel *)
Definition step (s : st) (e : ev) : result :=
  match e with
  | Issue =>      (* wait_group.go:82-101 *)
      match op s with
      | O0 => ok (w_op (w_rn (w_slot s (rn s) true) (S (rn s))) (OChk (rn s)))
      | _ => ok s
      end
  | Results => match op s with O0 => ok (w_op s (OTest MResults)) | _ => ok s end
  | Each => match op s with O0 => ok (w_op s (OTest MEach)) | _ => ok s end
  | Answer i => if i <? rn s then match dp s i with D0 => ([OPerform i], Some (w_dp s i D1)) | _ => ok s end else ok s
  | Cancel k => match kp s k with KIdle => ok (w_kp s k KKind) | _ => ok s end
  | Take =>
      match op s, chan s with
      | OEnd, Some _ =>
          match chq s with
          | x :: l => ([ORecv x], Some (w_chq s l))
          | [] => if closed s then ([OEOF], Some s) else ok s
          end
      | _, _ => ok s
      end
  | Resp i => step_resp s i
  | Canc k => step_canc s k
  | Owner => step_owner s
  end.
(** bookkeeping: a schedule, event by event *)
Fixpoint run (s : st) (es : list ev) : list obs * option st :=
  match es with
  | [] => ([], Some s)
  | e :: es =>
      match step s e with
      | (o, None) => (o, None)
      | (o, Some s) => let '(o', s') := run s es in (o ++ o', s')
      end
  end.
