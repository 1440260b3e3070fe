(** A tree of balancers, as a user sees it. *)
From Coq Require Import List Bool Arith Lia.
Import ListNotations.
From Verif Require Import NestModel.

(** something is true of all leaves and of all balancers of a tree *)
Fixpoint all (P : option nat -> lst -> Prop) (Q : option nat -> lpc -> Prop) (t : tree) : Prop :=
  match t with
  | Leaf ch s => P ch s
  | Bal ch p cs => Q ch p /\ (fix go (cs : list tree) : Prop := match cs with [] => True | c :: cs => all P Q c /\ go cs end) cs
  end.
(** before Run: nothing of it was ever run *)
Definition fresh : tree -> Prop := all (fun ch s => ch = None /\ s = LNew) (fun ch p => ch = None /\ p = New).
(** every endpoint runs, on the channel of the root *)
Definition running : tree -> Prop := all (fun ch s => ch = Some 0 /\ s = LRun) (fun ch p => ch = Some 0 /\ p = Waiting).
(** every loop has ended *)
Definition ended : tree -> Prop := all (fun _ s => s = LEnd) (fun _ p => p = Ended).
(** no loop has panicked *)
Definition sound : tree -> Prop := all (fun _ _ => True) (fun _ p => p <> Crashed).
(** an endpoint that was run takes its requests from the channel of the root, whatever balancers are between *)
Definition one_channel : tree -> Prop := all (fun ch s => s <> LNew -> ch = Some 0) (fun ch p => p <> New -> ch = Some 0).

(** steps of the library, of the goroutine that runs and stops the root, and AddChild of endpoints that were never run *)
Inductive reachable (t : tree) : st -> Prop :=
| r_start : reachable t (mkSt t UNew)
| r_move s s' : reachable t s -> move s s' -> reachable t s'
| r_add s y t' : reachable t s -> fresh y -> add y (root s) t' -> reachable t (mkSt t' (user s)).
(** nothing can go on by itself: no step of the tree, and the call of Stop, if it is under way, waits *)
Definition at_rest (s : st) : Prop := (forall t', ~ step (root s) t') /\ (user s = UStop -> take (root s) = None).
(** [n] moves of the library itself: of the loops, and of a Stop under way *)
Inductive works : nat -> st -> st -> Prop :=
| w_none s : works 0 s s
| w_step n t t' u s : step t t' -> works n (mkSt t' u) s -> works (S n) (mkSt t u) s
| w_take n t t' s : take t = Some t' -> works n (mkSt t' UDone) s -> works (S n) (mkSt t UStop) s.
(** the number of endpoints in a tree *)
Fixpoint size (t : tree) : nat :=
  match t with
  | Leaf _ _ => 1
  | Bal _ _ cs => S ((fix go (cs : list tree) : nat := match cs with [] => 0 | c :: cs => size c + go cs end) cs)
  end.
