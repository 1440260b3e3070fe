(** What a program relies on when it writes values of named types. *)
From Coq Require Import ZArith List Bool Arith.
Import ListNotations.
From Verif Require Import RegModel FillModel NomModel.

(** ** Types and values *)
(** the types a type is made of: its element, or the types of its fields *)
Definition contains (T : nat -> shape) (t u : nat) : Prop :=
  match T t with
  | SArr _ e | SSl e | SPtr e => u = e
  | SStruct fs => exists tg, In (tg, u) fs /\ tg <> TgSkip
  | _ => False
  end.
(** the type u occurs in the type t *)
Inductive within (T : nat -> shape) (t : nat) : nat -> Prop :=
| within_self : within T t t
| within_part u w : within T t u -> contains T u w -> within T t w.
(** some interface in the value holds a value of type t *)
Inductive holds (t : nat) : dv -> Prop :=
| holds_here v : holds t (VDyn t v)
| holds_dyn u v : holds t v -> holds t (VDyn u v)
| holds_ref v : holds t v -> holds t (VRef v)
| holds_seq v l : In v l -> holds t v -> holds t (VSeq l).

(** ** Histories *)
(** what has happened so far: any number of goroutines have asked for the codecs of any types, and are somewhere on their way *)
Definition history (T : nat -> shape) (es : list ev) : list obs * ist info := istart (prog T) info (pend T) (fin T) es.
Definition given (T : nat -> shape) (es : list ev) (t : nat) : Prop := exists k o, In (ORet k t o) (fst (history T es)).
(** the codecs a program finds after that history *)
Definition after (T : nat -> shape) (es : list ev) : nat -> info := table T (snd (history T es)).
(** calls of WriterFor one after the other, each by its own goroutine *)
Definition calls (n : nat) (k t : nat) : list ev := Call k t :: repeat (Go k) n.
(** the codecs [g] that the calls of WriterFor made while writing i return: each is as some history left it, with the codecs it
    points to *)
Definition found (T : nat -> shape) (g : nat -> info) (i : dv) : Prop :=
  forall t, holds t i -> exists es, given T es t /\ forall u, within T t u -> g u = after T es u.

(** the type's size varies from its first field on: strings, slices, pointers, interfaces, types with methods; arrays of such;
    structs whose first field (of those not skipped) is such and has no tag *)
Inductive varies (T : nat -> shape) (t : nat) : Prop :=
| varies_leaf : match T t with SNum _ | SArr _ _ | SStruct _ => False | _ => True end -> varies T t
| varies_arr n e : T t = SArr n e -> varies T e -> varies T t
| varies_struct sk e fs : T t = SStruct (sk ++ (TgAuto, e) :: fs) -> Forall (fun f => fst f = TgSkip) sk -> varies T e -> varies T t.
(** a type that contains itself has a size that varies from its first field on *)
Definition tame (T : nat -> shape) (t : nat) : Prop := forall u, within T t u -> (exists w, contains T u w /\ within T w u) -> varies T u.
