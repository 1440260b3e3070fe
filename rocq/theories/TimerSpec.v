(** Specification of timers, independent of the heap: what an observer of the events (After returned,
    Stop returned, the loop took a timer for expiry, the loop goes to sleep) may rely on. *)
From Coq Require Import ZArith List Bool Arith.
Import ListNotations.
From Verif Require Import TimerModel.
Open Scope Z_scope.

(** The deadline timer [x] is armed with after the events [tr] (oldest first), if any. *)
Definition upd_armed (x : nat) (st : option Z) (ev : tev) : option Z :=
  match ev with
  | Armed y e => if Nat.eqb y x then Some e else st
  | Stopped y => if Nat.eqb y x then None else st
  | Fired y _ _ => if Nat.eqb y x then None else st
  | Asleep _ => st
  end.
Definition armed (tr : list tev) (x : nat) : option Z := fold_left (upd_armed x) tr None.

(** The discipline of the package (timerSet in request.go:40-45 and wait_group.go:74-79): a timer
    that is armed is not armed again. *)
Definition disciplined (tr : list tev) : Prop :=
  forall pre x e post, tr = pre ++ Armed x e :: post -> armed pre x = None.

(** Everything the heap holds: the cells in use. *)
Definition live_cells (h : heap) : list (nat * Z) :=
  flat_map (fun i => match ix (cells h i) with Some x => [(x, ie (cells h i))] | None => [] end)
           (seq 1 (hlen h - 1)).

(** Links of the array: [i] is in use and has [j] as its [k]-th child. *)
Definition in_use (h : heap) (i : nat) : Prop := (0 < i < hlen h)%nat /\ ix (cells h i) <> None.
Definition links_ok (h : heap) : Prop :=
  (* every child link points to a cell in use that points back, and no deadline precedes its parent's *)
  (forall i k, in_use h i -> (k < idl (cells h i))%nat ->
     let j := nth k (idn (cells h i)) 0%nat in
     in_use h j /\ iup (cells h j) = i /\ iupi (cells h j) = Z.of_nat k /\ ie (cells h i) <= ie (cells h j)) /\
  (* every cell in use but the top is the child its parent link says it is *)
  (forall j, in_use h j -> j <> top h ->
     let i := iup (cells h j) in
     in_use h i /\ (0 <= iupi (cells h j) < Z.of_nat (idl (cells h i))) /\
     nth (Z.to_nat (iupi (cells h j))) (idn (cells h i)) 0%nat = j) /\
  (forall i, in_use h i -> (idl (cells h i) <= 4)%nat) /\
  (top h = 0%nat <-> live_cells h = []) /\ (top h <> 0%nat -> in_use h (top h)).
