(** Model of a tree of balancers: a BalancerPoint whose children are balancers themselves or other endpoints, to any depth
    (balancer.go:3-27, with Run, RunChild and Stop of SimplePoint, service.go:90-156). One step is the start of a child, one message on an
    exit channel, or the end of a loop.

    Simplifications. A child is added to a balancer that was not run or that has started its children and was not stopped, as one step
    (C96 and C97 are about AddChild at other times and step by step, for one balancer); no endpoint is in the tree twice; only the root is run and stopped from outside, by one goroutine. An endpoint that is no balancer is a leaf: once it
    runs it may take the message from its exit channel at any time (C150: a ParallelService does so soon), and then ends. What is in the
    channel of requests is C99. *)
From Coq Require Import List Bool Arith Lia.
Import ListNotations.

(** where Loop of a balancer is, balancer.go:19-27: not started; before RunChild of child [k]; at the exit channel; before or in Stop of
    child [k]; ended; panicked, service.go:108-110 *)
Inductive lpc := New | Starting (k : nat) | Waiting | Stopping (k : nat) | Ended | Crashed.
(** a leaf: not run; its loop runs; its loop took the exit message. service.go:90-101, 150-156 *)
Inductive lst := LNew | LRun | LEnd.
(** an endpoint; [ch] is s.b.ch, nil before Run: service.go:64-72, balancer.go:3-6 *)
Inductive tree := Leaf (ch : option nat) (s : lst) | Bal (ch : option nat) (p : lpc) (cs : list tree).
(** Runned, service.go:82-84 *)
Definition runned (t : tree) : bool := match t with Leaf ch _ | Bal ch _ _ => match ch with None => false | Some _ => true end end.
(** Run with a channel, service.go:90-101 *)
Definition start (ch : option nat) (t : tree) : tree := match t with Leaf _ _ => Leaf ch LRun | Bal _ _ cs => Bal ch (Starting 0) cs end.
(** s.exit <- true of Stop meets the loop at its exit channel, service.go:155, balancer.go:23; [None]: the loop is not there *)
Definition take (t : tree) : option tree :=
  match t with
  | Leaf ch LRun => Some (Leaf ch LEnd)
  | Bal ch Waiting cs => Some (Bal ch (Stopping 0) cs)
  | _ => None
  end.
(** a step of one of the loops in the tree, balancer.go:19-27, service.go:107-112, 150-156 *)
Inductive step : tree -> tree -> Prop :=
| SIn ch p a x x' b : step x x' -> step (Bal ch p (a ++ x :: b)) (Bal ch p (a ++ x' :: b))
| SStart ch a x b : runned x = false -> step (Bal ch (Starting (length a)) (a ++ x :: b)) (Bal ch (Starting (S (length a))) (a ++ start ch x :: b))
| SCrash ch a x b : runned x = true -> step (Bal ch (Starting (length a)) (a ++ x :: b)) (Bal ch Crashed (a ++ x :: b))
| SUp ch cs : step (Bal ch (Starting (length cs)) cs) (Bal ch Waiting cs)
| SStop ch a x x' b : take x = Some x' -> step (Bal ch (Stopping (length a)) (a ++ x :: b)) (Bal ch (Stopping (S (length a))) (a ++ x' :: b))
| SEnd ch cs : step (Bal ch (Stopping (length cs)) cs) (Bal ch Ended cs).

(** AddChild of the endpoint [y] to one of the balancers of the tree, balancer.go:12-17 *)
Inductive add (y : tree) : tree -> tree -> Prop :=
| AIn ch p a x x' b : add y x x' -> add y (Bal ch p (a ++ x :: b)) (Bal ch p (a ++ x' :: b))
| ANew cs : add y (Bal None New cs) (Bal None New (cs ++ [y]))
| ARun k cs : add y (Bal (Some k) Waiting cs) (Bal (Some k) Waiting (cs ++ [start (Some k) y])).

(** the goroutine that calls Run(nil) and later Stop of the root: before Run, after it, in Stop (which waits at service.go:155), after it *)
Inductive upc := UNew | URan | UStop | UDone.
Record st := mkSt { root : tree; user : upc }.
(** one step of all: service.go:55-60, 90-101, 150-156 *)
Inductive move : st -> st -> Prop :=
| MRun t : runned t = false -> move (mkSt t UNew) (mkSt (start (Some 0) t) URan)
| MStop t : move (mkSt t URan) (mkSt t UStop)
| MTake t t' : take t = Some t' -> move (mkSt t UStop) (mkSt t' UDone)
| MStep t t' u : step t t' -> move (mkSt t u) (mkSt t' u).
