(** Model of the endpoint's backlog (buffer.go) and of SimplePoint.Send / Stop (service.go:123-156): any number
    of goroutines calling Send, the goroutine of Buffer.loop, the worker at the other end of the channel, and
    goroutines that claim or complete requests. One step is one access to shared memory (a load, a store, an
    atomic addition, a channel operation) or one critical section.

    Simplifications. Memory is sequentially consistent. The counters are unbounded (uint64 in the code). A request
    is the number of its Send; its life cycle is reduced to new, pending, claimed, completed (RequestModel.v); a
    request that is reset and sent again is a new number. Completion first takes the request out of the pending
    state; the Respond and the unchain of the bookmark in the backlog cell (request.go:141-147) come at any later
    time, any number of times. Rows are objects on a heap. *)
From Coq Require Import List Bool Arith.
Import ListNotations.

(** buffer.go:26-28 *)
Definition bufRow : nat := 1024.
(** buffer.go:20-24 *)
Inductive cstate := CNew | CSet | CFree.
(** bookkeeping: a request is named by its number *)
Definition rid := nat.
(** bufBookmark, buffer.go:11-14; [creq] is Bookmark.Request *)
Record cell := mkCell { cst : cstate; creq : option rid }.
(** the zero bufBookmark, buffer.go:11-14 *)
Definition cell0 : cell := mkCell CNew None.
(** the state of a request as far as push and loop see it: RsNew, RsPending, RsInFly, performed; request.go:223-233 *)
Inductive rstate := RNew | RPend | RFly | RDone.
(** a *bufferRow, buffer.go:30-33 *)
Definition ptr := nat.
(** a goroutine in SimplePoint.Send *)
Inductive ppc :=
| PNone                       (* not called yet *)
| PCheck                      (* r.Performed(), service.go:143 *)
| PTail                       (* buffer.go:53, load of b.tail *)
| PHead (tv : nat)            (* buffer.go:53, load of b.head *)
| PTry                        (* buffer.go:54-58 *)
| PAdd                        (* buffer.go:61 *)
| PRow (i : nat)              (* buffer.go:63-64 *)
| PLook (i : nat)             (* buffer.go:66-72 *)
| PChain (i : nat) (p : ptr)  (* buffer.go:76 *)
| PMark (i : nat) (p : ptr) (c : bool)   (* buffer.go:77, 79 *)
| PWake                       (* buffer.go:81-84 *)
| PRet.
(** the goroutine of Buffer.loop *)
Inductive lpc :=
| LRecv                       (* buffer.go:96 *)
| LTest                       (* buffer.go:98 *)
| LRow                        (* buffer.go:100-111 *)
| LState (p : ptr)            (* buffer.go:113 *)
| LReq (p : ptr)              (* buffer.go:117 *)
| LFree (p : ptr) (q : option rid)  (* buffer.go:118 *)
| LPend (q : option rid)      (* buffer.go:119 *)
| LSend (r : rid)             (* buffer.go:120 *)
| LInc                        (* buffer.go:98, b.head++ *)
| LExit.                      (* buffer.go:126 *)
(** Buffer.close: before, between the send and close(b.set), after; buffer.go:87-93 *)
Inductive cpc := C0 | C1 | C2.
(** Buffer and its rows, buffer.go:11-43, and where its goroutines are *)
Record st := mkSt {
  cap : nat; ch : list rid;                       (* b.ch *)
  rows : list (nat * ptr); nrow : ptr; rowid : ptr -> nat; cells : ptr -> nat -> cell;
  hRow : ptr; tRow : ptr; head : nat; tail : nat;
  token : bool;                                   (* b.set, capacity 1 *)
  cp : cpc;                                       (* C2: b.set is closed *)
  pcs : rid -> ppc; rst : rid -> rstate;
  chained : rid -> option (ptr * nat);            (* the cell on the request's chain *)
  lp : lpc }.
(** Buffer.init, buffer.go:45-50; the channel's capacity is 16*1024 (service.go:92), here any number *)
Definition b_init (n : nat) : st :=
  mkSt n [] [(0, 0)] 1 (fun _ => 0) (fun _ _ => cell0) 0 0 0 0 false C0 (fun _ => PNone) (fun _ => RNew) (fun _ => None) LRecv.

(** bookkeeping: a function changed at one argument *)
Definition upd {A} (f : nat -> A) (k : nat) (v : A) : nat -> A := fun i => if i =? k then v else f i.
(** bookkeeping: a function of two arguments changed at one place *)
Definition upd2 (f : ptr -> nat -> cell) (p i : nat) (v : cell) : ptr -> nat -> cell := fun q j => if (q =? p) && (j =? i) then v else f q j.
(** record updates; bookkeeping: the assignments of the steps below *)
Definition w_ch s v := mkSt (cap s) v (rows s) (nrow s) (rowid s) (cells s) (hRow s) (tRow s) (head s) (tail s) (token s) (cp s) (pcs s) (rst s) (chained s) (lp s).
Definition w_rows s v := mkSt (cap s) (ch s) v (nrow s) (rowid s) (cells s) (hRow s) (tRow s) (head s) (tail s) (token s) (cp s) (pcs s) (rst s) (chained s) (lp s).
Definition w_alloc s n v := mkSt (cap s) (ch s) (rows s) n v (cells s) (hRow s) (tRow s) (head s) (tail s) (token s) (cp s) (pcs s) (rst s) (chained s) (lp s).
Definition w_cells s v := mkSt (cap s) (ch s) (rows s) (nrow s) (rowid s) v (hRow s) (tRow s) (head s) (tail s) (token s) (cp s) (pcs s) (rst s) (chained s) (lp s).
Definition w_hRow s v := mkSt (cap s) (ch s) (rows s) (nrow s) (rowid s) (cells s) v (tRow s) (head s) (tail s) (token s) (cp s) (pcs s) (rst s) (chained s) (lp s).
Definition w_tRow s v := mkSt (cap s) (ch s) (rows s) (nrow s) (rowid s) (cells s) (hRow s) v (head s) (tail s) (token s) (cp s) (pcs s) (rst s) (chained s) (lp s).
Definition w_head s v := mkSt (cap s) (ch s) (rows s) (nrow s) (rowid s) (cells s) (hRow s) (tRow s) v (tail s) (token s) (cp s) (pcs s) (rst s) (chained s) (lp s).
Definition w_tail s v := mkSt (cap s) (ch s) (rows s) (nrow s) (rowid s) (cells s) (hRow s) (tRow s) (head s) v (token s) (cp s) (pcs s) (rst s) (chained s) (lp s).
Definition w_token s v := mkSt (cap s) (ch s) (rows s) (nrow s) (rowid s) (cells s) (hRow s) (tRow s) (head s) (tail s) v (cp s) (pcs s) (rst s) (chained s) (lp s).
Definition w_cp s v := mkSt (cap s) (ch s) (rows s) (nrow s) (rowid s) (cells s) (hRow s) (tRow s) (head s) (tail s) (token s) v (pcs s) (rst s) (chained s) (lp s).
Definition w_pc s r v := mkSt (cap s) (ch s) (rows s) (nrow s) (rowid s) (cells s) (hRow s) (tRow s) (head s) (tail s) (token s) (cp s) (upd (pcs s) r v) (rst s) (chained s) (lp s).
Definition w_rst s r v := mkSt (cap s) (ch s) (rows s) (nrow s) (rowid s) (cells s) (hRow s) (tRow s) (head s) (tail s) (token s) (cp s) (pcs s) (upd (rst s) r v) (chained s) (lp s).
Definition w_chained s r v := mkSt (cap s) (ch s) (rows s) (nrow s) (rowid s) (cells s) (hRow s) (tRow s) (head s) (tail s) (token s) (cp s) (pcs s) (rst s) (upd (chained s) r v) (lp s).
Definition w_lp s v := mkSt (cap s) (ch s) (rows s) (nrow s) (rowid s) (cells s) (hRow s) (tRow s) (head s) (tail s) (token s) (cp s) (pcs s) (rst s) (chained s) v.

(** bookkeeping: what can be observed from outside *)
Inductive obs :=
| OSend (r : rid)       (* Send was called *)
| OQueue (r : rid)      (* the request got the next place in the backlog *)
| ODirect (r : rid)     (* Send put the request into the worker channel *)
| OHand (r : rid)       (* the loop put the request into the worker channel *)
| OReturn (r : rid)     (* Send returned *)
| OWork (r : rid)       (* the worker received the request *)
| OStop                 (* Stop has closed the buffer *)
| OExit                 (* the loop has ended *)
| OPanicSend (r : rid)  (* send on closed channel, in Send *)
| OPanicStop.           (* send on closed channel, in Stop *)
(** bookkeeping: the choices of the environment and of the scheduler *)
Inductive ev :=
| Send (r : rid) | Stop           (* the user: call Send (once for a number), run Stop *)
| Claim (r : rid)                 (* SetInFly *)
| Finish (r : rid)                (* RespondFail or RespondBytes: the state leaves pending *)
| CellFree (r : rid) | Unchain (r : rid)   (* the rest of the completion: bufBookmark.Respond, unchain *)
| Recv                            (* the worker receives from the channel *)
| Push (r : rid)                  (* the goroutine of Send(r) *)
| Loop.                           (* the goroutine of the buffer *)
(** bookkeeping: observations and the state after a step *)
Definition result := (list obs * option st)%type.
(** bookkeeping: a step without observation *)
Definition ok (s : st) : result := ([], Some s).
(** the channel b.ch has no room: the send in buffer.go:95-129 waits *)
Definition full (s : st) : bool := cap s <=? length (ch s).
(** b.rows[k], buffer.go:52-85 *)
Definition look (m : list (nat * ptr)) (k : nat) : option ptr := option_map snd (find (fun e => fst e =? k) m).
(** delete(b.rows, k), buffer.go:95-129 *)
Definition mdel (m : list (nat * ptr)) (k : nat) : list (nat * ptr) := filter (fun e => negb (fst e =? k)) m.

(** Send from service.go:143 on, and push, buffer.go:52-85 *)
Definition step_push (s : st) (r : rid) : result :=
  match pcs s r with
  | PNone | PRet => ok s
  | PCheck => match rst s r with RDone => ([OReturn r], Some (w_pc s r PRet)) | _ => ok (w_pc s r PTail) end
  | PTail => ok (w_pc s r (PHead (tail s)))
  | PHead tv => ok (w_pc s r (if tv =? head s then PTry else PAdd))
  | PTry => if full s then ok (w_pc s r PAdd) else ([ODirect r; OReturn r], Some (w_pc (w_ch s (ch s ++ [r])) r PRet))
  | PAdd => ([OQueue r], Some (w_pc (w_tail s (S (tail s))) r (PRow (tail s))))
  | PRow i => ok (w_pc s r (if rowid s (tRow s) =? i / bufRow then PChain i (tRow s) else PLook i))
  | PLook i =>
      match look (rows s) (i / bufRow) with
      | Some p => ok (w_pc s r (PChain i p))
      | None =>
          let p := nrow s in
          let s := w_alloc s (S p) (upd (rowid s) p (i / bufRow)) in
          ok (w_pc (w_tRow (w_rows s ((i / bufRow, p) :: rows s)) p) r (PChain i p))
      end
  | PChain i p =>
      match rst s r with
      | RNew | RPend =>
          let j := i mod bufRow in
          let s := w_cells s (upd2 (cells s) p j (mkCell (cst (cells s p j)) (Some r))) in
          ok (w_pc (w_chained s r (Some (p, j))) r (PMark i p true))
      | _ => ok (w_pc s r (PMark i p false))
      end
  | PMark i p c =>
      let j := i mod bufRow in
      ok (w_pc (w_cells s (upd2 (cells s) p j (mkCell (if c then CSet else CFree) (creq (cells s p j))))) r PWake)
  | PWake =>
      match cp s with
      | C2 => ([OPanicSend r], None)
      | _ => ([OReturn r], Some (w_pc (w_token s true) r PRet))
      end
  end.
(** buffer.go:95-129 *)
Definition step_loop (s : st) : result :=
  match lp s with
  | LRecv =>
      if token s then ok (w_lp (w_token s false) LTest)
      else match cp s with C2 => ([OExit], Some (w_lp s LExit)) | _ => ok s end
  | LTest => ok (w_lp s (if head s <? tail s then LRow else LRecv))
  | LRow =>
      let b := head s / bufRow in
      if rowid s (hRow s) =? b then ok (w_lp s (LState (hRow s)))
      else
        let found := look (rows s) b in
        let s := w_rows s (match b with O => rows s | S b => mdel (rows s) b end) in
        match found with
        | Some p => ok (w_lp (w_hRow s p) (LState p))
        | None => ok (w_lp s LRecv)
        end
  | LState p =>
      match cst (cells s p (head s mod bufRow)) with
      | CNew => ok (w_lp s LRecv)
      | CSet => ok (w_lp s (LReq p))
      | CFree => ok (w_lp s LInc)
      end
  | LReq p => ok (w_lp s (LFree p (creq (cells s p (head s mod bufRow)))))
  | LFree p q =>
      let j := head s mod bufRow in
      ok (w_lp (w_cells s (upd2 (cells s) p j (mkCell CFree (creq (cells s p j))))) (LPend q))
  | LPend q =>
      match q with
      | Some r => match rst s r with RPend => ok (w_lp s (LSend r)) | _ => ok (w_lp s LInc) end
      | None => ok (w_lp s LInc)
      end
  | LSend r => if full s then ok s else ([OHand r], Some (w_lp (w_ch s (ch s ++ [r])) LInc))
  | LInc => ok (w_lp (w_head s (S (head s))) LTest)
  | LExit => ok s
  end.
(** one step: of a Send (service.go:123-148, buffer.go:52-85), of Stop (service.go:150-156, buffer.go:87-93), of the loop (buffer.go:95-129), of the
    worker, or of somebody who claims or completes a request *)
Definition step (s : st) (e : ev) : result :=
  match e with
  | Send r =>
      match pcs s r, rst s r with
      | PNone, RNew => ([OSend r], Some (w_pc (w_rst s r RPend) r PCheck))   (* SetPending, service.go:132 *)
      | PNone, RDone => ([OSend r; OReturn r], Some (w_pc s r PRet))         (* service.go:134-136 *)
      | _, _ => ok s
      end
  | Stop =>   (* Buffer.close, buffer.go:87-93, service.go:150-153 *)
      match cp s with
      | C0 => ok (w_cp (w_token s true) C1)
      | C1 => ([OStop], Some (w_cp s C2))
      | C2 => ([OPanicStop], None)
      end
  | Claim r => match rst s r with RPend => ok (w_rst s r RFly) | _ => ok s end
  | Finish r => ok (w_rst s r RDone)
  | CellFree r =>   (* buffer.go:16-18 *)
      match rst s r, chained s r with
      | RDone, Some (p, j) => ok (w_cells s (upd2 (cells s) p j (mkCell CFree (creq (cells s p j)))))
      | _, _ => ok s
      end
  | Unchain r =>    (* response.go:81-87 *)
      match rst s r, chained s r with
      | RDone, Some (p, j) => ok (w_cells s (upd2 (cells s) p j (mkCell (cst (cells s p j)) None)))
      | _, _ => ok s
      end
  | Recv => match ch s with r :: l => ([OWork r], Some (w_ch s l)) | [] => ok s end
  | Push r => step_push s r
  | Loop => step_loop s
  end.
(** bookkeeping: a schedule, event by event *)
Fixpoint run (s : st) (es : list ev) : list obs * option st :=
  match es with
  | [] => ([], Some s)
  | e :: es =>
      match step s e with
      | (o, None) => (o, None)
      | (o, Some s) => let '(o', s') := run s es in (o ++ o', s')
      end
  end.
