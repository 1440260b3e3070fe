(** Model of the registry of a Context (context.go): AddCanceler, RemoveCanceler, Cancel/Expire with cancelAll, WaitAll,
    and the calls that register something (NewRequest, NewMulti, Child, Go and its variants), by any number of goroutines.

    Simplifications. Memory is sequentially consistent. A canceler is a number (Go compares the interface values). What a
    canceler does when it is cancelled is not modelled: its Cancel is an observation, and whatever follows from it, such as
    RemoveCanceler, is an event of its own; the goroutine continues at any later time. The stretches in which the mutex is
    held are single steps, except in AddCanceler, which reads the state before it registers; the state and, in cancelAll,
    the two counters are also accessed without the mutex. sync.Cond is a queue of waiting goroutines. Integers do not
    overflow. Cancel and Expire differ in the value stored only. *)
From Coq Require Import List Bool Arith ZArith.
Import ListNotations.

(** who calls AddCanceler *)
Inductive kind :=
| KRaw      (* AddCanceler called directly *)
| KNew      (* NewRequest, NewMulti, Child: context.go:149-161, 171-176, 215-220 *)
| KGo.      (* Go, GoInt, GoAsync, GoIntAsync: context.go:224-230, 237-243, 258-272 *)
Inductive apc :=
| A0
| AState (g : kind) (c : nat)   (* :149, :171, :215 *)
| ALock (g : kind) (c : nat)    (* :82-84 *)
| AReg (g : kind) (c : nat)     (* :86-101, the mutex is held *)
| ACancel (g : kind) (c : nat)  (* :151, :173, :219, or :103 *)
| ARet (g : kind) (c : nat)
| AEnd.
Inductive wpc :=
| W0
| WTest       (* :251-252 *)
| WWait       (* :253, in the queue of the condition variable *)
| WAgain      (* signalled: takes the mutex and tests again *)
| WEnd.
Inductive kpc :=
| K0
| KCas                  (* :128, :134 *)
| KMap                  (* :108, len(c.cancelsm) > 0 *)
| KCnt                  (* :108, c.cancelsn > 0 *)
| KCollect              (* :109-119 *)
| KCall (l : list nat)  (* :120-123 *)
| KEnd.
(** Context, context.go:46-59, and where its callers are *)
Record st := mkSt {
  dead : bool;                (* State is not CxOK *)
  c0 : option nat; c1 : option nat;   (* cancels *)
  cnt : Z;                    (* cancelsn *)
  mp : list nat;              (* the keys of cancelsm *)
  lock : bool;                (* the mutex is held by an AddCanceler *)
  wq : list nat;              (* childCond *)
  ap : nat -> apc; wp : nat -> wpc; kp : nat -> kpc }.
(** the zero Context, context.go:46-59 *)
Definition x_init : st := mkSt false None None 0 [] false [] (fun _ => A0) (fun _ => W0) (fun _ => K0).

(** bookkeeping: a function changed at one argument *)
Definition upd {A} (f : nat -> A) (k : nat) (v : A) : nat -> A := fun i => if i =? k then v else f i.
(** bookkeeping: the state with one component replaced; the assignments of the steps below *)
Definition w_dead s v := mkSt v (c0 s) (c1 s) (cnt s) (mp s) (lock s) (wq s) (ap s) (wp s) (kp s).
Definition w_lock s v := mkSt (dead s) (c0 s) (c1 s) (cnt s) (mp s) v (wq s) (ap s) (wp s) (kp s).
Definition w_reg s a b n m := mkSt (dead s) a b n m (lock s) (wq s) (ap s) (wp s) (kp s).
Definition w_wq s v := mkSt (dead s) (c0 s) (c1 s) (cnt s) (mp s) (lock s) v (ap s) (wp s) (kp s).
Definition w_ap s i v := mkSt (dead s) (c0 s) (c1 s) (cnt s) (mp s) (lock s) (wq s) (upd (ap s) i v) (wp s) (kp s).
Definition w_wp s i v := mkSt (dead s) (c0 s) (c1 s) (cnt s) (mp s) (lock s) (wq s) (ap s) (upd (wp s) i v) (kp s).
Definition w_kp s i v := mkSt (dead s) (c0 s) (c1 s) (cnt s) (mp s) (lock s) (wq s) (ap s) (wp s) (upd (kp s) i v).

(** bookkeeping: what can be observed from outside *)
Inductive obs :=
| OAddCall (a c : nat)     (* goroutine a begins to register canceler c *)
| OAdd (a c : nat)         (* c is registered *)
| OAddRet (a c : nat)
| OStart (c : nat)         (* Go starts the function of the child c *)
| OCancel (c : nat)        (* Cancel of canceler c is called *)
| ORemove (c : nat)        (* RemoveCanceler *)
| OCancelCall (k : nat)    (* Context.Cancel or Expire *)
| OSet (k : nat)           (* this call changed the state of the context *)
| OCancelRet (k : nat)
| OWaitCall (k : nat) | OWaitRet (k : nat).
(** bookkeeping: the choices of the environment and of the scheduler *)
Inductive ev :=
| Add (a : nat) (g : kind) (c : nat) | Remove (c : nat) | Wait (k : nat) | Cancel (k : nat)   (* calls *)
| Adder (a : nat) | Waiter (k : nat) | Canc (k : nat).                                          (* one step of a call *)
(** bookkeeping: observations and the state after a step *)
Definition result := (list obs * st)%type.
(** bookkeeping: a step without observation *)
Definition ok (s : st) : result := ([], s).

(** context.go:86-100 *)
Definition register (s : st) (c : nat) : st :=
  match c0 s, c1 s with
  | None, _ => w_reg s (Some c) (c1 s) (cnt s + 1) (mp s)
  | _, None => w_reg s (c0 s) (Some c) (cnt s + 1) (mp s)
  | _, _ => w_reg s (c0 s) (c1 s) (cnt s) (if in_dec Nat.eq_dec c (mp s) then mp s else mp s ++ [c])
  end.
(** bookkeeping: is there a value *)
Definition is_some (o : option nat) (c : nat) : bool := match o with Some x => x =? c | None => false end.
(** context.go:63-73 *)
Definition unregister (s : st) (c : nat) : st :=
  if is_some (c0 s) c then w_reg s None (c1 s) (cnt s - 1) (mp s)
  else if is_some (c1 s) c then w_reg s (c0 s) None (cnt s - 1) (mp s)
  else w_reg s (c0 s) (c1 s) (cnt s) (remove Nat.eq_dec c (mp s)).
(** c.cancelsn == 0 && len(c.cancelsm) == 0; nothing is registered: the test of WaitAll, context.go:250-256 *)
Definition empty (s : st) : bool := (cnt s =? 0)%Z && match mp s with [] => true | _ => false end.
(** sync.Cond.Signal; context.go:61-78 *)
Definition signal (s : st) : st := match wq s with [] => s | k :: q => w_wp (w_wq s q) k WAgain end.
(** bookkeeping: options as lists *)
Definition opt (o : option nat) : list nat := match o with Some x => [x] | None => [] end.
(** the named result ok of Child is never assigned, context.go:213-222 *)
Definition child_ok : bool := false.

(** the next step of a registration and of the removal, context.go:61-105 *)
Definition step_add (s : st) (a : nat) : result :=
  match ap s a with
  | A0 | AEnd => ok s
  | AState g c => ok (w_ap s a (if dead s then ACancel g c else ALock g c))
  | ALock g c =>
      if lock s then ok s
      else ok (if dead s then w_ap s a (ACancel g c) else w_ap (w_lock s true) a (AReg g c))
  | AReg g c => ([OAdd a c], w_ap (w_lock (register s c) false) a (ARet g c))
  | ACancel g c => ([OCancel c], w_ap s a (ARet g c))
  | ARet g c =>
      (match g with KGo => if child_ok then [OStart c] else [] | _ => [] end ++ [OAddRet a c], w_ap s a AEnd)
  end.
(** the next step of WaitAll, context.go:250-256 *)
Definition step_wait (s : st) (k : nat) : result :=
  match wp s k with
  | W0 | WEnd | WWait => ok s
  | _ => if lock s then ok s
         else if empty s then ([OWaitRet k], w_wp s k WEnd) else ok (w_wp (w_wq s (wq s ++ [k])) k WWait)
  end.
(** the next step of Cancel or Expire, context.go:107-137 *)
Definition step_canc (s : st) (k : nat) : result :=
  match kp s k with
  | K0 | KEnd => ok s
  | KCas => if dead s then ([OCancelRet k], w_kp s k KEnd) else ([OSet k], w_kp (w_dead s true) k KMap)
  | KMap => ok (w_kp s k (match mp s with [] => KCnt | _ => KCollect end))
  | KCnt => if (cnt s >? 0)%Z then ok (w_kp s k KCollect) else ([OCancelRet k], w_kp s k KEnd)
  | KCollect => if lock s then ok s else ok (w_kp s k (KCall (opt (c0 s) ++ opt (c1 s) ++ mp s)))
  | KCall [] => ok (w_kp s k KMap)
  | KCall (c :: l) => ([OCancel c], w_kp s k (KCall l))
  end.
Definition step (s : st) (e : ev) : result :=
  match e with
  | Add a g c => match ap s a with A0 => ([OAddCall a c], w_ap s a (match g with KRaw => ALock g c | _ => AState g c end)) | _ => ok s end
  | Remove c =>      (* context.go:61-78 *)
      if lock s then ok s
      else let s' := unregister s c in ([ORemove c], if empty s' then signal s' else s')
  | Wait k => match wp s k with W0 => ([OWaitCall k], w_wp s k WTest) | _ => ok s end
  | Cancel k => match kp s k with K0 => ([OCancelCall k], w_kp s k KCas) | _ => ok s end
  | Adder a => step_add s a
  | Waiter k => step_wait s k
  | Canc k => step_canc s k
  end.
(** bookkeeping: a schedule, event by event *)
Fixpoint run (s : st) (es : list ev) : list obs * st :=
  match es with
  | [] => ([], s)
  | e :: es => let '(o, s) := step s e in let '(o', s') := run s es in (o ++ o', s')
  end.
