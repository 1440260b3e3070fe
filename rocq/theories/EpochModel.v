(** Model of Epoch (epoch.go) and of the deadlines of Timer.After (custom_timer.go:23-37).

    A time.Time is the number of nanoseconds since 2010-01-01 UTC, of any size: NowEpoch and Sub read the wall clock, as the
    constant [epoch] has no monotonic reading. An Epoch and a Duration are int64. The clock of the machine is an argument. *)
From Coq Require Import List ZArith.
Import ListNotations.
From Verif Require Import TimerModel.
Open Scope Z_scope.

(** the largest time.Duration, epoch.go:7 *)
Definition max : Z := 9223372036854775807.
(** the smallest time.Duration, epoch.go:7 *)
Definition min : Z := -9223372036854775808.
(** the wrap-around of int64; epoch.go:7, 23-29 *)
Definition i64 (z : Z) : Z := (z - min) mod 18446744073709551616 + min.
(** package time, Time.Sub: the difference, or the nearest Duration; used by epoch.go:11-13, 31-33 *)
Definition sat (z : Z) : Z := Z.max min (Z.min max z).
(** time.Time{}: January 1 of year 1; 63397900800 s before 2010; returned by epoch.go:35-41 *)
Definition zero_time : Z := -63397900800 * 1000000000.

(** epoch.go:11-13 *)
Definition NewEpoch (tm : Z) : Z := sat tm.
(** epoch.go:15-17 *)
Definition NowEpoch (clock : Z) : Z := sat clock.
(** epoch.go:19-21 *)
Definition Before (e o : Z) : bool := e <? o.
(** epoch.go:23-25 *)
Definition Sub (e o : Z) : Z := i64 (e - o).
(** epoch.go:27-29 *)
Definition Add (e d : Z) : Z := i64 (e + d).
(** epoch.go:31-33 *)
Definition SubTime (e tm : Z) : Z := i64 (e - sat tm).
(** epoch.go:35-41; Time.Add of [epoch] and a Duration is exact *)
Definition Time (e : Z) : Z := if 0 <? e then e else zero_time.
(** epoch.go:43-45 *)
Definition Zero (e : Z) : bool := e =? 0.
(** epoch.go:47-49 *)
Definition WillExpire (clock e after : Z) : bool := (0 <? e) && (i64 (e - after) <? NowEpoch clock).
(** epoch.go:55-57 *)
Definition Remains (clock e : Z) : Z := i64 (e - NowEpoch clock).
(** epoch.go:59-61 *)
Definition Elapsed (clock e : Z) : Z := i64 (NowEpoch clock - e).

(** Calls of Timer.After and Timer.Stop and rounds of the loop, with the clock each of them sees. *)
Inductive top_c :=
| After (x : nat) (clock d : Z)     (* custom_timer.go:23-37 *)
| StopC (x : nat)                   (* custom_timer.go:39-48 *)
| Round (clock : Z).                (* custom_timer.go:110-134 *)
Definition section (o : top_c) : top_ :=
  match o with
  | After x clock d => Arm x (Add (NowEpoch clock) d)
  | StopC x => Stop x
  | Round clock => Pop (NowEpoch clock)
  end.
(** bookkeeping: calls one after the other *)
Definition crun (ops : list top_c) : option (heap * list tev) := hrun hinit (map section ops).
