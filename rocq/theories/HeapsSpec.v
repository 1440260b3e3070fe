(** What users of several timer heaps may rely on, in terms of the events of TimerSpec. *)
From Coq Require Import ZArith List Bool Arith.
Import ListNotations.
From Verif Require Import TimerModel TimerSpec HeapsModel.
Open Scope nat_scope.

(** What happened on heap [o], oldest first. *)
Definition at_heap (o : nat) (tr : list obs) : list tev :=
  flat_map (fun b => match b with OOn p v => if p =? o then [v] else [] | _ => [] end) tr.
(** What happened on all of them, oldest first: this is what users see, they do not know of heaps. A
    Stop of a Timer never armed is a Stop. *)
Definition timeline (tr : list obs) : list tev :=
  flat_map (fun b => match b with OOn _ v => [v] | OMiss x => [Stopped x] | _ => [] end) tr.

(** Is a call of After on the Timer of [x] under way? *)
Definition upd_busy (x : nat) (b : bool) (o : obs) : bool :=
  match o with
  | OAfter _ y _ => if y =? x then true else b
  | OOn _ (Armed y _) => if y =? x then false else b
  | _ => b
  end.
Definition busy (tr : list obs) (x : nat) : bool := fold_left (upd_busy x) tr false.
(** The users' duty: After is not called on a Timer while another After on it is under way. *)
Definition serial (tr : list obs) : Prop :=
  forall pre k x e post, tr = pre ++ OAfter k x e :: post -> busy pre x = false.

(** In heaps[i%heapN] the variable heapN is read before heaps (the Go specification leaves the order
    open). *)
Definition counts_first (l : list ev) : Prop := forall k, ~ In (EHeapsFirst k) l.

(** whom an event is about *)
Definition about (v : tev) : option nat :=
  match v with Armed x _ | Stopped x | Fired x _ _ => Some x | Asleep _ => None end.
