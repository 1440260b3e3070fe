(** Model of BalancerPoint (balancer.go) and of the part of SimplePoint it uses (service.go): any number of goroutines that
    call Run, AddChild, Stop and Send of one balancer, its Loop, and its children. One step is one access to a shared field,
    the start of a child or one message on an exit channel.

    Simplifications. The balancer is run by Run(nil), in one step (two concurrent calls of Run are not modelled), and is not
    itself a child. The slice children is a value: a concurrent append that reuses the backing array is an append to a copy.
    The backlog and the channel of requests are one unlimited queue (BufferModel.v has the details). A child is any EndPoint
    that is run only by the balancer: once its Run was called it has a loop that may take a request from the queue or a
    message from its exit channel at any time, and it runs until it takes the latter. A panic in Loop ends the process, a
    panic in a caller ends the call. *)
From Coq Require Import List Bool Arith.
Import ListNotations.

(** where a goroutine is *)
Inductive pc :=
| PNew
| ARead (c : nat)                     (* balancer.go:13, b.children is read *)
| AWrite (c : nat) (l : list nat)     (* balancer.go:13, b.children is written *)
| ATest (c : nat)                     (* balancer.go:14 *)
| ARun (c : nat)                      (* balancer.go:15 *)
| TClose                              (* service.go:151-153 *)
| TExit                               (* service.go:155 *)
| PEnd
| PPanic.
(** where Loop is, balancer.go:19-27 *)
Inductive lpc :=
| LNone                               (* not started *)
| LTop                                (* :20, b.children is read *)
| LTest (todo : list nat)             (* :20-21, service.go:108 *)
| LRun (c : nat) (todo : list nat)    (* service.go:111 *)
| LWait                               (* :23 *)
| LRange                              (* :24, b.children is read *)
| LHalt (todo : list nat)             (* :24 *)
| LSend (c : nat) (todo : list nat)   (* :25, service.go:155 of the child *)
| LEnd
| LCrash.                             (* service.go:109 *)
Record st := mkSt {
  children : list nat;
  runned : bool;             (* s.b.ch != nil; then s.standalone holds too *)
  closed : bool;             (* s.b.set is closed *)
  lp : lpc;
  crun : nat -> bool;        (* Runned of a child *)
  loops : nat -> nat;        (* the number of goroutines in the Loop of a child *)
  q : list nat;              (* requests in the backlog and the channel *)
  pcs : nat -> pc }.
(** a BalancerPoint after Init, balancer.go:8-10 *)
Definition s_init : st := mkSt [] false false LNone (fun _ => false) (fun _ => 0) [] (fun _ => PNew).
(** bookkeeping: a function changed at one argument *)
Definition upd {A} (f : nat -> A) (k : nat) (v : A) : nat -> A := fun i => if i =? k then v else f i.
(** bookkeeping: the state with one component replaced; the assignments of the steps below *)
Definition w_children s v := mkSt v (runned s) (closed s) (lp s) (crun s) (loops s) (q s) (pcs s).
Definition w_runned s v := mkSt (children s) v (closed s) (lp s) (crun s) (loops s) (q s) (pcs s).
Definition w_closed s v := mkSt (children s) (runned s) v (lp s) (crun s) (loops s) (q s) (pcs s).
Definition w_lp s v := mkSt (children s) (runned s) (closed s) v (crun s) (loops s) (q s) (pcs s).
Definition w_loops s v := mkSt (children s) (runned s) (closed s) (lp s) (crun s) v (q s) (pcs s).
Definition w_q s v := mkSt (children s) (runned s) (closed s) (lp s) (crun s) (loops s) v (pcs s).
Definition w_pc s k v := mkSt (children s) (runned s) (closed s) (lp s) (crun s) (loops s) (q s) (upd (pcs s) k v).
(** p.Run(s.b.ch) of child c, service.go:90-101 with a channel: no check, one more goroutine in Loop *)
Definition start_child (s : st) (c : nat) : st :=
  mkSt (children s) (runned s) (closed s) (lp s) (upd (crun s) c true) (upd (loops s) c (S (loops s c))) (q s) (pcs s).

(** bookkeeping: what can be observed from outside *)
Inductive obs :=
| ORun                       (* Run of the balancer *)
| ORunPanic                  (* ... a second time *)
| OLoop                      (* Loop begins: it reads the list of children *)
| OAdd (k c : nat)           (* goroutine k calls AddChild(c) *)
| OAdded (k c : nat)         (* AddChild(c) returns *)
| OStart (c : nat)           (* Run of child c is called *)
| OCrash                     (* Loop panics *)
| OStop (k : nat)            (* goroutine k calls Stop *)
| OStopped (k : nat)         (* Stop returns *)
| OPanic (k : nat)           (* Stop panics *)
| OHalt (c : nat)            (* Loop calls Stop of child c *)
| OHalted (c : nat)          (* ... which returns *)
| OEnd                       (* Loop returns *)
| OUStop (c : nat)           (* somebody else stops child c *)
| OSent (r : nat)            (* Send of request r returns *)
| OSendPanic (r : nat)
| OTake (c r : nat).         (* child c takes request r *)
(** bookkeeping: the choices of the environment and of the scheduler *)
Inductive ev :=
| Run | Add (k c : nat) | Stop (k : nat) | Send (r : nat) | UStop (c : nat)   (* calls from outside *)
| Go (k : nat)                                                                (* a call goes on *)
| Loop                                                                        (* Loop goes on *)
| Exit (k : nat)                                                              (* Loop takes the message of Stop *)
| Take                                                                        (* a child takes the message of Loop *)
| Recv (c : nat).                                                             (* a child takes a request *)
(** bookkeeping: observations and the state after a step *)
Definition result := (list obs * st)%type.
(** bookkeeping: a step without observation *)
Definition ok (s : st) : result := ([], s).
(** the next step of a call of AddChild (balancer.go:12-17) or Stop (service.go:150-156); each case is a place of [pc] *)
Definition step_go (s : st) (k : nat) : result :=
  match pcs s k with
  | ARead c => ok (w_pc s k (AWrite c (children s)))
  | AWrite c l => ok (w_pc (w_children s (l ++ [c])) k (ATest c))
  | ATest c => if runned s then ok (w_pc s k (ARun c)) else ([OAdded k c], w_pc s k PEnd)
  | ARun c => ([OStart c; OAdded k c], w_pc (start_child s c) k PEnd)
  | TClose =>
      if runned s then
        if closed s then ([OPanic k], w_pc s k PPanic) else ok (w_pc (w_closed s true) k TExit)
      else ok (w_pc s k TExit)
  | _ => ok s
  end.
(** the next step of Loop, balancer.go:19-27; each case is a place of [lpc] *)
Definition step_loop (s : st) : result :=
  match lp s with
  | LTop => ([OLoop], w_lp s (LTest (children s)))
  | LTest [] => ok (w_lp s LWait)
  | LTest (c :: todo) => if crun s c then ([OCrash], w_lp s LCrash) else ok (w_lp s (LRun c todo))
  | LRun c todo => ([OStart c], w_lp (start_child s c) (LTest todo))
  | LRange => ok (w_lp s (LHalt (children s)))
  | LHalt [] => ([OEnd], w_lp s LEnd)
  | LHalt (c :: todo) => ([OHalt c], w_lp s (LSend c todo))
  | _ => ok s
  end.
(** one step: Run (service.go:55-60, 90-101), AddChild and Stop begin, Send (service.go:123-148), a child is stopped by somebody, a call or Loop goes on, messages on the exit channels (balancer.go:23, service.go:155), a child receives a request *)
Definition step_live (s : st) (e : ev) : result :=
  match e with
  | Run => if runned s then ([ORunPanic], s) else ([ORun], w_lp (w_runned s true) LTop)
  | Add k c => match pcs s k with PNew => ([OAdd k c], w_pc s k (ARead c)) | _ => ok s end
  | Stop k => match pcs s k with PNew => ([OStop k], w_pc s k TClose) | _ => ok s end
  | Send r => if runned s then ([OSent r], w_q s (q s ++ [r])) else ([OSendPanic r], s)
  | UStop c => match loops s c with 0 => ok s | S n => ([OUStop c], w_loops s (upd (loops s) c n)) end
  | Go k => step_go s k
  | Loop => step_loop s
  | Exit k => match pcs s k, lp s with TExit, LWait => ([OStopped k], w_lp (w_pc s k PEnd) LRange) | _, _ => ok s end
  | Take =>
      match lp s with
      | LSend c todo =>
          match loops s c with 0 => ok s | S n => ([OHalted c], w_lp (w_loops s (upd (loops s) c n)) (LHalt todo)) end
      | _ => ok s
      end
  | Recv c => match loops s c, q s with S _, r :: l => ([OTake c r], w_q s l) | _, _ => ok s end
  end.
(** after a panic in Loop (service.go:109) the process is gone *)
Definition step (s : st) (e : ev) : result := match lp s with LCrash => ok s | _ => step_live s e end.
(** bookkeeping: a schedule, event by event *)
Fixpoint run (s : st) (es : list ev) : result :=
  match es with
  | [] => ([], s)
  | e :: es => let '(o, s) := step s e in let '(o', s') := run s es in (o ++ o', s')
  end.
(** bookkeeping: a schedule from the initial state *)
Definition start (es : list ev) : result := run s_init es.
