(** Model of custom_timer.go:18-76: Timer.After and Timer.Stop called by any number of goroutines, the
    choice of one of several timer heaps (nextHeap, getHeap) and the growth of the set of heaps.

    A goroutine is a program counter; one event is one step of one goroutine, or one round of the loop
    of one heap. The operations on one heap run under its mutex and are those of TimerModel ([hstep]).
    The fields h and i of a Timer are shared by all heaps: [th x] and [ti x], for the Timer of
    Expirator [x].

    Simplifications: reads and writes of t.h, heapN and of the slice header [heaps] are atomic; object
    numbers and the length of [heaps] are not wrapped to 32 bits; the deadline NowEpoch().Add(d), taken
    under the lock of the heap, is an arbitrary number given with the call. *)
From Coq Require Import ZArith List Bool Arith.
Import ListNotations.
From Verif Require Import TimerModel.
Open Scope nat_scope.

(** a heap with the fields i of the Timers as given, custom_timer.go:87-96 *)
Definition set_ti (h : heap) (f : nat -> nat) : heap := mkH (cells h) (hlen h) (size h) (top h) (free h) f.
(** what belongs to the heap object itself, custom_timer.go:87-96 *)
Definition body (h : heap) : heap := set_ti h (fun _ => 0).

(** where a goroutine is inside After (custom_timer.go:23-37), nextHeap (55-72), getHeap (74-76) or
    Stop (39-48) *)
Inductive pc :=
| Idle
| ALoad (x : nat) (e : Z)                            (* 25: t.h == 0 ? *)
| NAdd (x : nat) (e : Z)                             (* 56 *)
| NMod (x : nat) (e : Z) (i : Z)                     (* 57 *)
| NLock (x : nat) (e : Z) (i : Z)                    (* 58 *)
| NProcs (x : nat) (e : Z) (i : Z)                   (* 59-64 *)
| NGrow (x : nat) (e : Z) (i : Z) (n : nat)          (* 65 *)
| NApp (x : nat) (e : Z) (i : Z) (n : nat) (sl : list nat)  (* 66: heaps and its length read *)
| NSet (x : nat) (e : Z) (i : Z) (n : nat)           (* 68 *)
| NUnlock (x : nat) (e : Z) (i : Z)                  (* 69 *)
| NPick (x : nat) (e : Z) (i : Z)                    (* 71: before either heapN or heaps is read *)
| NIdx (x : nat) (e : Z) (j : nat)                   (* 71: i%heapN computed *)
| NSl (x : nat) (e : Z) (i : Z) (sl : list nat)      (* 71: heaps read, heapN not yet *)
| ASet (x : nat) (e : Z) (o : nat)                   (* 27 *)
| AGet (x : nat) (e : Z)                             (* 29 *)
| APush (x : nat) (e : Z) (o : nat)                  (* 31-36 *)
| SLoad (x : nat)                                    (* 40 *)
| SGet (x : nat) (h : nat)                           (* 41 *)
| SRem (x : nat) (o : nat)                           (* 42-46 *)
| Dead.                                              (* panicked *)

(** the package variables of custom_timer.go:50-53, the heaps, the Timers, and where the callers are *)
Record st := mkSt {
  heaps : list nat;          (* the slice heaps, line 50: numbers of heap objects *)
  objI : nat -> nat;         (* the field i of a heap object, line 91 *)
  nobj : nat;                (* objects made so far; each has its goroutine running loop, line 102 *)
  hp : nat -> heap;          (* the rest of a heap object *)
  ti : nat -> nat;           (* Timer.i, line 20 *)
  th : nat -> nat;           (* Timer.h, line 19 *)
  heapI : Z; heapN : nat;    (* lines 52-53 *)
  heapM : option nat;        (* line 51: who holds the lock *)
  pcs : nat -> pc }.

(** bookkeeping: the choices of the environment and of the scheduler *)
Inductive ev :=
| EAfter (k x : nat) (e : Z)     (* goroutine k calls x.Timer().After, the deadline will be e *)
| EStop (k x : nat)              (* goroutine k calls x.Timer().Stop *)
| EGo (k : nat)                  (* goroutine k makes its next step *)
| EProcs (k : nat) (n : nat)     (* goroutine k gets n from runtime.GOMAXPROCS(-1) *)
| EHeapsFirst (k : nat)          (* goroutine k reads heaps before heapN in heaps[i%heapN] *)
| ELoop (o : nat) (now : Z).     (* the loop of heap object o makes one round, its clock reads now *)

(** bookkeeping: what can be observed from outside *)
Inductive obs :=
| OAfter (k x : nat) (e : Z)     (* After is called *)
| OStop (k x : nat)              (* Stop is called *)
| OOn (o : nat) (v : tev)        (* something happened on heap o; Armed and Stopped end their call *)
| OMiss (x : nat)                (* Stop of a Timer that was never armed returns *)
| OPanic (k : nat)               (* goroutine k panics *)
| OCrash (o : nat).              (* the loop of heap o panics *)

(** bookkeeping: the state with one component replaced; the assignments of the steps below *)
Definition set_pc (s : st) (k : nat) (p : pc) : st :=
  mkSt (heaps s) (objI s) (nobj s) (hp s) (ti s) (th s) (heapI s) (heapN s) (heapM s) (fupd (pcs s) k p).
Definition set_lock (s : st) (m : option nat) : st :=
  mkSt (heaps s) (objI s) (nobj s) (hp s) (ti s) (th s) (heapI s) (heapN s) m (pcs s).
Definition set_ctr (s : st) (i : Z) : st :=
  mkSt (heaps s) (objI s) (nobj s) (hp s) (ti s) (th s) i (heapN s) (heapM s) (pcs s).
Definition set_n (s : st) (n : nat) : st :=
  mkSt (heaps s) (objI s) (nobj s) (hp s) (ti s) (th s) (heapI s) n (heapM s) (pcs s).
Definition set_th (s : st) (x h : nat) : st :=
  mkSt (heaps s) (objI s) (nobj s) (hp s) (ti s) (fupd (th s) x h) (heapI s) (heapN s) (heapM s) (pcs s).
Definition set_hp (s : st) (o : nat) (h : heap) : st :=
  mkSt (heaps s) (objI s) (nobj s) (fupd (hp s) o (body h)) (TimerModel.ti h) (th s) (heapI s) (heapN s) (heapM s) (pcs s).

(** heaps = append(heaps, newHeap(uint32(len(heaps)+1))), custom_timer.go:66 and 98-104; [sl] is the
    value of heaps read before. *)
Definition grow (s : st) (sl : list nat) : st :=
  mkSt (sl ++ [nobj s]) (fupd (objI s) (nobj s) (S (length sl))) (S (nobj s))
       (fupd (hp s) (nobj s) (body hinit)) (ti s) (th s) (heapI s) (heapN s) (heapM s) (pcs s).

(** the critical section [c] on heap object [o]: its array and the Timers' shared fields i; custom_timer.go:23-48, 106-135 *)
Definition on (s : st) (o : nat) (c : top_) : option (st * tev) :=
  match hstep (set_ti (hp s o) (ti s)) c with
  | Some (h, v) => Some (set_hp s o h, v)
  | None => None
  end.

(** bookkeeping: a goroutine panicked *)
Definition die (s : st) (k : nat) : list obs * st := ([OPanic k], set_pc s k Dead).

(** i % heapN, then heaps[..]: custom_timer.go:71 *)
Definition index (i : Z) (n : nat) : nat := Z.to_nat (i mod Z.of_nat n).

(** one step of goroutine [k], custom_timer.go:23-76 *)
Definition go (s : st) (k : nat) : list obs * st :=
  match pcs s k with
  | Idle | Dead | NProcs _ _ _ => ([], s)
  | ALoad x e => ([], set_pc s k (if th s x =? 0 then NAdd x e else AGet x e))
  | NAdd x e => let i := ((heapI s + 1) mod 2 ^ 32)%Z in ([], set_pc (set_ctr s i) k (NMod x e i))
  | NMod x e i => ([], set_pc s k (if (i mod 10000 =? 0)%Z then NLock x e i else NPick x e i))
  | NLock x e i =>
      match heapM s with
      | None => ([], set_pc (set_lock s (Some k)) k (NProcs x e i))
      | Some _ => ([], s)
      end
  | NGrow x e i n =>
      ([], set_pc s k (if length (heaps s) <? n then NApp x e i n (heaps s) else NSet x e i n))
  | NApp x e i n sl => ([], set_pc (grow s sl) k (NGrow x e i n))
  | NSet x e i n => ([], set_pc (set_n s n) k (NUnlock x e i))
  | NUnlock x e i => ([], set_pc (set_lock s None) k (NPick x e i))
  | NPick x e i => if heapN s =? 0 then die s k else ([], set_pc s k (NIdx x e (index i (heapN s))))
  | NIdx x e j => match nth_error (heaps s) j with Some o => ([], set_pc s k (ASet x e o)) | None => die s k end
  | NSl x e i sl =>
      if heapN s =? 0 then die s k
      else match nth_error sl (index i (heapN s)) with Some o => ([], set_pc s k (ASet x e o)) | None => die s k end
  | ASet x e o => ([], set_pc (set_th s x (objI s o)) k (APush x e o))
  | AGet x e =>
      match th s x with
      | 0 => die s k
      | S j => match nth_error (heaps s) j with Some o => ([], set_pc s k (APush x e o)) | None => die s k end
      end
  | APush x e o => match on s o (Arm x e) with Some (s', v) => ([OOn o v], set_pc s' k Idle) | None => die s k end
  | SLoad x => if th s x =? 0 then ([OMiss x], set_pc s k Idle) else ([], set_pc s k (SGet x (th s x)))
  | SGet x h => match nth_error (heaps s) (h - 1) with Some o => ([], set_pc s k (SRem x o)) | None => die s k end
  | SRem x o => match on s o (Stop x) with Some (s', v) => ([OOn o v], set_pc s' k Idle) | None => die s k end
  end.

(** custom_timer.go:23-76, and one round of the inner loop of a heap's loop, 113-130 *)
Definition step (s : st) (e : ev) : list obs * st :=
  match e with
  | EAfter k x d => match pcs s k with Idle => ([OAfter k x d], set_pc s k (ALoad x d)) | _ => ([], s) end
  | EStop k x => match pcs s k with Idle => ([OStop k x], set_pc s k (SLoad x)) | _ => ([], s) end
  | EGo k => go s k
  | EProcs k n =>
      match pcs s k with
      | NProcs x d i => if n =? 0 then ([], s) else ([], set_pc s k (NGrow x d i (if n =? 1 then 2 else n * 8)))
      | _ => ([], s)
      end
  | EHeapsFirst k => match pcs s k with NPick x d i => ([], set_pc s k (NSl x d i (heaps s))) | _ => ([], s) end
  | ELoop o now =>
      if o <? nobj s then match on s o (Pop now) with Some (s', v) => ([OOn o v], s') | None => ([OCrash o], s) end
      else ([], s)
  end.

(** bookkeeping: a schedule, event by event *)
Fixpoint run (s : st) (l : list ev) : list obs * st :=
  match l with
  | [] => ([], s)
  | e :: l => let (o, s') := step s e in let (os, s'') := run s' l in (o ++ os, s'')
  end.

(** two heaps, numbered 1 and 2; custom_timer.go:50-53 *)
Definition start : st :=
  mkSt [0; 1] (fun o => S o) 2 (fun _ => body hinit) (fun _ => 0) (fun _ => 0) 0%Z 2 None (fun _ => Idle).
