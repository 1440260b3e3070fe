(** What users of the registries rely on. *)
From Coq Require Import List Bool Arith Relations.
Import ListNotations.
From Verif Require Import RegModel.

(** the types a type is made of *)
Definition part (prog : nat -> list instr) (t u : nat) : Prop := In (Need u) (prog t).
Definition parts (prog : nat -> list instr) : nat -> nat -> Prop := clos_refl_trans nat (part prog).
(** nothing in the type is unsupported *)
Definition supported (prog : nat -> list instr) (t : nat) : Prop := forall u, parts prog t u -> ~ In Fail (prog u).
(** the codec o of type t is ready for use: filled, and the codecs it points to are those [at_] gives for its parts, in order *)
Definition ready (prog : nat -> list instr) (at_ : nat -> option nat) (s : st) (t o : nat) : Prop :=
  full s o = true /\ map Some (refs s o) = map (fun i => match i with Need u => at_ u | Fail => None end) (prog t).
Definition internal (e : ev) : Prop := match e with Go _ => True | _ => False end.
Definition quiet (prog : nat -> list instr) (s : st) : Prop := forall e, internal e -> step prog s e = ([], s).
Fixpoint productive (prog : nat -> list instr) (s : st) (es : list ev) : Prop :=
  match es with
  | [] => True
  | e :: es => internal e /\ step prog s e <> ([], s) /\ productive prog (snd (step prog s e)) es
  end.
