(** Model of net/client/auto.go: any number of goroutines that call Get and Stop of one Auto, and that call Stop of the
    servers it returned. One step is one access to the field servers, one operation on the mutex, the start of a server, or
    one message on the exit channel of a server.

    Simplifications. The field servers is read and written atomically (the program reads it without the lock). A.Config is
    not nil and does not change while Get runs. Of a server there is only Stop (service.go:150-156: a second call panics in
    Buffer.close, buffer.go:87-93, since the channel is closed already) and its loop (ClientModel.v): while it runs it may take
    a message from its exit channel at any time, and after that it may end at any time. *)
From Coq Require Import List Bool Arith ZArith.
Import ListNotations.
From Verif Require Import Base ConfModel.
Open Scope nat_scope.

(** an address, the key of the map: net/client/auto.go:11, 15 *)
Definition addr := list Z.
(** equality of keys, net/client/auto.go:23 *)
Definition addr_eq : forall a b : addr, {a = b} + {a <> b} := list_eq_dec Z.eq_dec.
(** a map[string]*Server; a server is the number of its start; net/client/auto.go:11 *)
Definition smap := list (addr * nat).
(** servers[addr], net/client/auto.go:23, 25 *)
Fixpoint find (a : addr) (m : smap) : option nat :=
  match m with [] => None | (b, i) :: m => if addr_eq a b then Some i else find a m end.
(** the loop of a server, net/client/server.go:120-142 *)
Inductive sst := SvNone | SvRun | SvTold (* Buffer.close was called *) | SvStopping | SvEnded.
(** where a goroutine is *)
Inductive pc :=
| PNew
| GNil (a : addr)                   (* auto.go:16 *)
| GMake (a : addr)                  (* :17-21 *)
| GLook (a : addr)                  (* :23 *)
| GLock (a : addr)                  (* :24-29 *)
| GStore (a : addr) (i : nat)       (* :30-37, with the lock *)
| TLock                             (* :43 *)
| TNext (todo : list nat)           (* :45-48, with the lock *)
| THalt (i : nat) (todo : list nat) (* in serv.Stop, service.go:155, with the lock *)
| UHalt (i : nat)                   (* in serv.Stop, called from outside *)
| PEnd
| PPanic.                           (* NewServer, config.go:35, or serv.Stop panicked, with the lock *)
Record st := mkSt { servers : option smap; lock : option nat; count : nat; sv : nat -> sst; pcs : nat -> pc }.
(** the zero Auto, net/client/auto.go:9-13; no server was started *)
Definition s_init : st := mkSt None None 0 (fun _ => SvNone) (fun _ => PNew).
(** bookkeeping: a function changed at one argument *)
Definition upd {A} (f : nat -> A) (k : nat) (v : A) : nat -> A := fun i => if i =? k then v else f i.
(** bookkeeping: the state with one component replaced; the assignments of the steps below *)
Definition w_servers s v := mkSt v (lock s) (count s) (sv s) (pcs s).
Definition w_lock s v := mkSt (servers s) v (count s) (sv s) (pcs s).
Definition w_sv s i v := mkSt (servers s) (lock s) (count s) (upd (sv s) i v) (pcs s).
Definition w_pc s k v := mkSt (servers s) (lock s) (count s) (sv s) (upd (pcs s) k v).

(** bookkeeping: what can be observed from outside *)
Inductive obs :=
| OCall (k : nat) (a : addr)            (* goroutine k calls Get(a) *)
| OStart (i : nat) (a : addr)           (* server i is made for address a and started *)
| OGet (k : nat) (a : addr) (i : nat)   (* Get(a) returns server i to goroutine k *)
| OPanic (k : nat)                      (* Get or Stop of the Auto panics in goroutine k *)
| OStop (k : nat)                       (* goroutine k calls Stop *)
| OHalt (i : nat)                       (* the Auto tells server i to stop *)
| OStopped (k : nat)                    (* Stop returns to goroutine k *)
| OUser (k : nat) (i : nat)             (* goroutine k stops server i itself *)
| OUserPanic (k : nat) (i : nat).       (* ... and panics *)
(** bookkeeping: the choices of the environment and of the scheduler *)
Inductive ev :=
| Get (k : nat) (a : addr) | Stop (k : nat) | Halt (k : nat) (i : nat)    (* a goroutine begins its call *)
| Go (k : nat)                                                            (* it goes on *)
| Next (k : nat) (i : nat)                                                (* the range over the map comes to server i *)
| Take (k : nat)                                                          (* the server takes the message of goroutine k *)
| Ends (i : nat).                                                         (* the loop of server i ends *)
(** bookkeeping: observations and the state after a step *)
Definition result := (list obs * st)%type.
(** bookkeeping: a step without observation *)
Definition ok (s : st) : result := ([], s).
(** sync.Mutex: nobody holds the lock *)
Definition free (s : st) : bool := match lock s with None => true | Some _ => false end.
(** servers[addr], also of a nil map: net/client/auto.go:23, 25 *)
Definition look (a : addr) (m : option smap) : option nat := match m with None => None | Some m => find a m end.
(** a.servers[addr] with addr bound to serv, and the rest copied: auto.go:30-36. The copy comes after, but addr is not in it. *)
Definition store (a : addr) (i : nat) (m : option smap) : smap := (a, i) :: match m with None => [] | Some m => m end.
(** the next step of goroutine k in Get (net/client/auto.go:15-40) or Stop (:42-51); each case is a place of [pc] *)
Definition step_go (s : st) (k : nat) : result :=
  match pcs s k with
  | GNil a => ok (w_pc s k (match servers s with None => GMake a | Some _ => GLook a end))
  | GMake a =>
      if free s then
        let s := match servers s with None => w_servers s (Some []) | Some _ => s end in ok (w_pc s k (GLook a))
      else ok s
  | GLook a => match look a (servers s) with Some i => ([OGet k a i], w_pc s k PEnd) | None => ok (w_pc s k (GLock a)) end
  | GLock a =>
      if free s then
        match look a (servers s) with
        | Some i => ([OGet k a i], w_pc s k PEnd)
        | None =>
            match a with
            | [] => ([OPanic k], w_pc (w_lock s (Some k)) k PPanic)
            | _ => let i := count s in
                   ([OStart i a], mkSt (servers s) (Some k) (S i) (upd (sv s) i SvRun) (upd (pcs s) k (GStore a i)))
            end
        end
      else ok s
  | GStore a i => ([OGet k a i], w_pc (w_lock (w_servers s (Some (store a i (servers s)))) None) k PEnd)
  | TLock =>
      if free s then
        match servers s with
        | None => ([OStopped k], w_pc s k PEnd)
        | Some m => ok (w_pc (w_lock s (Some k)) k (TNext (map snd m)))
        end
      else ok s
  | TNext [] => ([OStopped k], w_pc (w_lock (w_servers s None) None) k PEnd)
  | _ => ok s
  end.
(** bookkeeping: membership *)
Definition mem (i : nat) (l : list nat) : bool := existsb (Nat.eqb i) l.
(** bookkeeping: removal from a list *)
Definition del (i : nat) (l : list nat) : list nat := remove Nat.eq_dec i l.
(** one step: a call begins, goes on, the range of Stop (net/client/auto.go:45-47) comes to a server, or a server takes its exit message (service.go:155) or ends (net/client/server.go:120-142) *)
Definition step (s : st) (e : ev) : result :=
  match e with
  | Get k a => match pcs s k with PNew => ([OCall k a], w_pc s k (GNil a)) | _ => ok s end
  | Stop k => match pcs s k with PNew => ([OStop k], w_pc s k TLock) | _ => ok s end
  | Halt k i =>
      match pcs s k, sv s i with
      | _, SvNone => ok s
      | PNew, SvRun => ([OUser k i], w_pc (w_sv s i SvTold) k (UHalt i))
      | PNew, _ => ([OUserPanic k i], w_pc s k PEnd)
      | _, _ => ok s
      end
  | Go k => step_go s k
  | Next k i =>
      match pcs s k with
      | TNext todo =>
          if mem i todo then
            match sv s i with
            | SvRun => ([OHalt i], w_pc (w_sv s i SvTold) k (THalt i (del i todo)))
            | _ => ([OPanic k], w_pc s k PPanic)
            end
          else ok s
      | _ => ok s
      end
  | Take k =>
      match pcs s k with
      | THalt i todo => match sv s i with SvTold => ok (w_pc (w_sv s i SvStopping) k (TNext todo)) | _ => ok s end
      | UHalt i => match sv s i with SvTold => ok (w_pc (w_sv s i SvStopping) k PEnd) | _ => ok s end
      | _ => ok s
      end
  | Ends i => match sv s i with SvStopping => ok (w_sv s i SvEnded) | _ => ok s end
  end.
(** bookkeeping: a schedule, event by event *)
Fixpoint run (s : st) (es : list ev) : result :=
  match es with
  | [] => ([], s)
  | e :: es => let '(o, s) := step s e in let '(o', s') := run s es in (o ++ o', s')
  end.
(** bookkeeping: a schedule from the initial state *)
Definition start (es : list ev) : result := run s_init es.
(** conf := *a.Config; conf.Address = addr; conf.NewServer(), auto.go:26-28: the server made for an address *)
Definition at_address (c : config) (a : addr) : config :=
  mkCfg (c_network c) a (c_name c) (c_conns c) (c_dial c) (c_read c) (c_write c) (c_ping c) (c_rct c) (c_timeout c).
(** the server Get makes for an address, net/client/auto.go:26-28 *)
Definition server_for (c : config) (a : addr) : option used := NewServer (at_address c a).
