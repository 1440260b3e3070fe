(** How contexts end. *)
From Coq Require Import ZArith List Bool Arith.
Import ListNotations.
From Verif Require Import RequestModel.
From Verif Require Import TreeModel.
Open Scope Z_scope.

(** [c] has ended *)
Definition ended (tr : list obs) (c : nat) : Prop := exists g, In (OSet g c) tr.
(** the reasons for [c] to have ended, and what it then has to report *)
Inductive explains (tr : list obs) (c : nat) : cause -> Prop :=
(* Cancel, or Expire, was called *)
| by_call k w : In (OCancel k c w) tr -> explains tr c w
(* it is a child of a context that has ended *)
| by_parent k p : In (OChild k p c) tr -> ended tr p -> explains tr c CxCanceled
(* it is the context of the handler of a request, which was cancelled by somebody *)
| by_cancel k r : In (OHandle r c) tr -> In (ORespond k r RcCanceled) tr -> explains tr c CxCanceled
(* it is the context of the handler of a request, which was issued through a context that has ended *)
| by_issuer k p r : In (OHandle r c) tr -> In (ONew k p r) tr -> ended tr p -> explains tr c CxCanceled
(* it is the context of the handler of a request, whose time was over *)
| by_timeout k r : In (OHandle r c) tr -> In (ORespond k r RcTimeout) tr -> explains tr c CxTimeout.
(** the methods Alive (context.go:205-207) and Timeout (209-211) *)
Definition Alive (s : sys) (c : nat) : bool := match st (cx s c) with None => true | _ => false end.
(** see above *)
Definition Timeout (s : sys) (c : nat) : bool := match st (cx s c) with Some CxTimeout => true | _ => false end.
