(** What users of requests with timeouts see. *)
From Coq Require Import ZArith List Bool Arith.
Import ListNotations.
From Verif Require Import TimerModel TimerSpec DueModel.
Open Scope Z_scope.

(** what happened to timers, oldest first *)
Definition timers (tr : list obs) : list tev := flat_map (fun b => match b with OTimer v => [v] | _ => [] end) tr.

(** How many calls of SetTimeout on [x] (by users, or by Send) are under way? *)
Definition upd_setting (x : nat) (n : nat) (b : obs) : nat :=
  match b with
  | OSetTimeout _ y _ => if Nat.eqb y x then S n else n
  | OTimeoutSet _ y => if Nat.eqb y x then pred n else n
  | _ => n
  end.
Definition setting (tr : list obs) (x : nat) : nat := fold_left (upd_setting x) tr 0%nat.
(** The users' duty: SetTimeout is not called on a request while another call of it on that request is under way. *)
Definition one_at_a_time (tr : list obs) : Prop :=
  forall pre k x d post, tr = pre ++ OSetTimeout k x d :: post -> setting pre x = 0%nat.

(** [x] was given a timeout, its deadline is [e] *)
Definition deadline (tr : list obs) (x : nat) (e : Z) : Prop := In (OTimer (Armed x e)) tr.
(** the codes the Responder of [x] was called with *)
Definition delivered (tr : list obs) (x : nat) : list Z :=
  flat_map (fun b => match b with ODeliver _ y c => if Nat.eqb y x then [c] else [] | _ => [] end) tr.

Section Rest.
Variable home : nat -> nat.
Variable blocks : nat -> bool.
(** the step changes nothing: it is a step of a goroutine that waits or is in no call, or the loop of a heap finds
    that nothing is due *)
Definition idle (s : sys) (e : ev) : Prop :=
  step home blocks s e = ([], s) \/ exists now, step home blocks s e = ([OTimer (Asleep now)], s).
(** nothing is left to be done at time [now] *)
Definition quiet (now : Z) (s : sys) : Prop := forall g, idle s (EGo g now).
(** a schedule of the goroutines, with any clock, in which each step does something *)
Fixpoint effective (s : sys) (es : list ev) : Prop :=
  match es with
  | [] => True
  | e :: es => (exists g now, e = EGo g now) /\ ~ idle s e /\ effective (snd (step home blocks s e)) es
  end.
End Rest.
