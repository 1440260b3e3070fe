(** Model of requests with timeouts: SetTimeout, Expire and the completion of requests (request.go:40-53,
    76-98, 129-179), Send of an endpoint (service.go:124-150), and the timers under them
    (custom_timer.go, as in TimerModel.v), in one machine.

    Any number of requests; any number of goroutines, and one more for each timer heap, its loop. One step is one
    atomic action of one goroutine: a load or store of a shared field, lock, unlock, a critical section of a timer
    heap, a call of a Responder. A step of a goroutine comes with what its clock reads.

    Simplifications: memory is sequentially consistent; a Timer is on the heap [home x], chosen freely (HeapsModel.v
    and C114 show that a Timer keeps its heap and that heaps may be looked at one by one); the loop of a heap is
    awake (TimerLoopModel.v is about its sleep); clock readings and timeouts are integers and their sum does not
    overflow (EpochModel.v is about that); bodies are left out (RequestModel.v has them); bookmarks are seen only when
    they re-arm the request, which may happen to any completion; Responders do not call the library, and the Responder
    of a request either returns or blocks for ever; SetPending and SetInFly are one step each. *)
From Coq Require Import ZArith List Bool Arith.
Import ListNotations.
From Verif Require Import RequestModel.
From Verif Require Import TimerModel.
Open Scope Z_scope.

(** a goroutine of the user, or the loop of a timer heap (custom_timer.go:102) *)
Inductive gor := U (k : nat) | L (o : nat).
(** bookkeeping: equality of goroutines *)
Definition geq (a b : gor) : bool :=
  match a, b with U i, U j => Nat.eqb i j | L i, L j => Nat.eqb i j | _, _ => false end.

(** RespondBytes (request.go:165-171) or RespondFail (173-179) with a code *)
Inductive answer := Bytes (code : Z) | Fail (code : Z).
(** bookkeeping: the code of an answer *)
Definition code_of (a : answer) : Z := match a with Bytes c | Fail c => c end.

(** where a goroutine is, in request.go, service.go and custom_timer.go *)
Inductive pc :=
| Free                                 (* in no call *)
| Sp (x : nat) (d : Z)                 (* service.go:133: SetPending *)
| Sx (x : nat)                         (* service.go:135: Performed, after SetPending has failed *)
| T1 (x : nat) (d : Z) (send : bool)   (* request.go:41; send: called by Send *)
| T2 (x : nat) (d : Z) (send : bool)   (* request.go:42 *)
| T3 (x : nat) (d : Z) (send : bool)   (* request.go:43, custom_timer.go:23-37 *)
| Sq (x : nat)                         (* service.go:143: Performed *)
| Lk (x : nat) (a : answer)            (* request.go:166, 174: Lock *)
| Ck (x : nat) (a : answer)            (* request.go:167, 175 *)
| Pr (x : nat) (c : Z)                 (* request.go:130-140 *)
| Wk (x : nat) (c : Z)                 (* request.go:141-147 *)
| Dl (x : nat) (c : Z)                 (* request.go:148: inside Responder.Respond *)
| Pf (x : nat)                         (* request.go:149-151 *)
| St (x : nat)                         (* request.go:152, custom_timer.go:39-48 *)
| Ul (x : nat)                         (* request.go:170, 178: Unlock *)
| Gone.                                (* panicked, service.go:138 *)

(** the fields of a request, request.go:27-38 *)
Record req := mkRq { state : Z; lock : option gor; tset : bool }.

(** the requests, the timer heaps (custom_timer.go:50) and the goroutines *)
Record sys := mkSys { rq : nat -> req; hp : nat -> heap; at_ : gor -> pc }.

(** calls of request.go:40, 76, 88, 165, 173 and service.go:124, and the scheduler *)
Inductive ev :=
| ESend (k x : nat) (d : Z)        (* goroutine k calls Send of an endpoint whose Timeout is d *)
| ESetTimeout (k x : nat) (d : Z)  (* goroutine k calls SetTimeout *)
| ERespond (k x : nat) (a : answer)(* goroutine k calls RespondBytes or RespondFail, or Cancel and the like *)
| EPend (x : nat)                  (* SetPending of x by somebody *)
| EFly (x : nat)                   (* SetInFly of x by somebody *)
| ERearm (g : gor) (new : bool)    (* a bookmark re-arms the request g is completing, to New or to Pending *)
| EGo (g : gor) (now : Z).         (* the next step of g; its clock reads now *)

(** bookkeeping: what happens *)
Inductive obs :=
| OSetTimeout (k x : nat) (d : Z)  (* SetTimeout is called *)
| OTimeoutSet (k x : nat)          (* SetTimeout has returned *)
| OTimer (v : tev)                 (* something happened to a timer *)
| ORespond (k x : nat) (c : Z)     (* RespondBytes or RespondFail is called by a user with code c *)
| ODeliver (g : gor) (x : nat) (c : Z)  (* g calls the Responder of x with code c *)
| ODone (g : gor) (x : nat)        (* RespondBytes or RespondFail on x, called by g, returns *)
| ORearm (x : nat)                 (* x is re-armed *)
| OPush (x : nat)                  (* Send queues x *)
| OPanic (k : nat)                 (* goroutine k panics *)
| OCrash.                          (* a timer heap is found corrupted *)

Section Due.
(** the heap of a Timer, custom_timer.go:23-31 *)
Variable home : nat -> nat.
(** whose Responder blocks for ever, e.g. an unbuffered Chan nobody reads (response.go:54-58) *)
Variable blocks : nat -> bool.

(** bookkeeping: the state with one component replaced *)
Definition gupd {A} (f : gor -> A) (g : gor) (v : A) : gor -> A := fun j => if geq j g then v else f j.
(** bookkeeping *)
Definition move (s : sys) (g : gor) (p : pc) : sys := mkSys (rq s) (hp s) (gupd (at_ s) g p).
(** bookkeeping *)
Definition set_rq (s : sys) (x : nat) (r : req) : sys := mkSys (fupd (rq s) x r) (hp s) (at_ s).
(** bookkeeping *)
Definition set_state (s : sys) (x : nat) (z : Z) : sys := set_rq s x (mkRq z (lock (rq s x)) (tset (rq s x))).
(** bookkeeping *)
Definition set_lock (s : sys) (x : nat) (l : option gor) : sys := set_rq s x (mkRq (state (rq s x)) l (tset (rq s x))).
(** bookkeeping *)
Definition set_tset (s : sys) (x : nat) : sys := set_rq s x (mkRq (state (rq s x)) (lock (rq s x)) true).
(** bookkeeping *)
Definition set_hp (s : sys) (o : nat) (h : heap) : sys := mkSys (rq s) (fupd (hp s) o h) (at_ s).

(** Performed, request.go:100-103 *)
Definition performed (s : sys) (x : nat) : bool := (state (rq s x) =? RsPrepared) || (state (rq s x) =? RsPerformed).
(** the condition of RespondBytes (request.go:167) and of RespondFail (175) *)
Definition may (s : sys) (x : nat) (a : answer) : bool :=
  match a with
  | Bytes _ => state (rq s x) =? RsInFly
  | Fail _ => Z.land (state (rq s x)) (Z.lor RsPrepared RsPerformed) =? 0
  end.
(** a critical section of a timer heap, then on to [p]; custom_timer.go:31-36, 42-46, 113-130 *)
Definition timer (s : sys) (g : gor) (o : nat) (c : top_) (p : pc) (more : list obs) : list obs * sys :=
  match hstep (hp s o) c with
  | Some (h, v) => (OTimer v :: more, move (set_hp s o h) g p)
  | None => ([OCrash], s)
  end.

(** the next step of a goroutine; request.go:41-46, 129-179, service.go:133-145, custom_timer.go:106-130 *)
Definition go (s : sys) (g : gor) (now : Z) : list obs * sys :=
  match at_ s g with
  | Free =>
      match g with
      | U _ => ([], s)
      | L o => (* custom_timer.go:113-127: the loop takes a timer that is due, unlocks and calls Expire *)
          match hstep (hp s o) (Pop now) with
          | Some (h, Fired x e n) => ([OTimer (Fired x e n)], move (set_hp s o h) g (Lk x (Fail RcTimeout)))
          | Some (_, v) => ([OTimer v], s)
          | None => ([OCrash], s)
          end
      end
  | Sp x d =>
      if state (rq s x) =? RsNew
      then ((match g with U k => [OSetTimeout k x d] | L _ => [] end), move (set_state s x RsPending) g (T1 x d true))
      else ([], move s g (Sx x))
  | Sx x => if performed s x then ([], move s g Free)
            else ((match g with U k => [OPanic k] | L _ => [] end), move s g Gone)
  | T1 x d b =>
      if (0 <? d) && negb (tset (rq s x)) then ([], move s g (T2 x d b))
      else ((match g with U k => [OTimeoutSet k x] | L _ => [] end), move s g (if b then Sq x else Free))
  | T2 x d b => ([], move (set_tset s x) g (T3 x d b))
  | T3 x d b =>
      timer s g (home x) (Arm x (now + d)) (if b then Sq x else Free)
            (match g with U k => [OTimeoutSet k x] | L _ => [] end)
  | Sq x => if performed s x then ([], move s g Free) else ([OPush x], move s g Free)
  | Lk x a => match lock (rq s x) with None => ([], move (set_lock s x (Some g)) g (Ck x a)) | Some _ => ([], s) end
  | Ck x a => ([], move s g (if may s x a then Pr x (code_of a) else Ul x))
  | Pr x c => ([], move (set_state s x RsPrepared) g (Wk x c))
  | Wk x c => ([ODeliver g x c], move s g (Dl x c))
  | Dl x c => if blocks x then ([], s) else ([], move s g (Pf x))
  | Pf x => ([], move (set_state s x RsPerformed) g (St x))
  | St x => timer s g (home x) (Stop x) (Ul x) []
  | Ul x => ([ODone g x], move (set_lock s x None) g Free)
  | Gone => ([], s)
  end.

(** request.go:40-53, 76-98, 129-179; service.go:124-150; custom_timer.go:23-48, 106-135 *)
Definition step (s : sys) (e : ev) : list obs * sys :=
  match e with
  | ESend k x d => match at_ s (U k) with Free => ([], move s (U k) (Sp x d)) | _ => ([], s) end
  | ESetTimeout k x d =>
      match at_ s (U k) with Free => ([OSetTimeout k x d], move s (U k) (T1 x d false)) | _ => ([], s) end
  | ERespond k x a =>
      match at_ s (U k) with Free => ([ORespond k x (code_of a)], move s (U k) (Lk x a)) | _ => ([], s) end
  | EPend x => ([], if state (rq s x) =? RsNew then set_state s x RsPending else s)
  | EFly x => ([], if state (rq s x) =? RsPending then set_state s x RsInFly else s)
  | ERearm g new =>
      match at_ s g with
      | Wk x _ => ([ORearm x], move (set_state s x (if new then RsNew else RsPending)) g (Ul x))
      | _ => ([], s)
      end
  | EGo g now => go s g now
  end.

(** bookkeeping: a schedule, event by event *)
Fixpoint run (s : sys) (l : list ev) : list obs * sys :=
  match l with
  | [] => ([], s)
  | e :: l => let (o, s') := step s e in let (os, s'') := run s' l in (o ++ os, s'')
  end.
End Due.

(** fresh requests, empty heaps, no call under way; request.go:242, custom_timer.go:98-104 *)
Definition init : sys := mkSys (fun _ => mkRq RsNew None false) (fun _ => hinit) (fun _ => Free).
