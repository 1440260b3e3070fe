(** What users of contexts see. *)
From Coq Require Import ZArith List Bool Arith.
Import ListNotations.
From Verif Require Import RequestModel.
From Verif Require Import TreeModel.
Open Scope Z_scope.

(** the codes the Responder of [r] was called with *)
Definition delivered (tr : list obs) (r : nat) : list Z :=
  flat_map (fun b => match b with ODeliver q c => if Nat.eqb q r then [c] else [] | _ => [] end) tr.
(** the Responder of [r] is about to be called *)
Definition completing (s : sys) (r : nat) : Prop := exists k a, In (FDl r a) (stk s k).
(** every call of the library has returned *)
Definition at_rest (s : sys) : Prop := forall k, jb s k = None.
(** At the moment [c] is cancelled the call of NewRequest of [c] that makes [r] is not under way: it has returned, or has
    not begun. *)
Definition settled (tr : list obs) (c r : nat) : Prop :=
  forall a g b, tr = a ++ OSet g c :: b -> forall k, In (ONew k c r) a -> In (ONewRet k c r) a.
(** The same for the call of Child of [c] that makes [d]. *)
Definition settled_child (tr : list obs) (c d : nat) : Prop :=
  forall a g b, tr = a ++ OSet g c :: b -> forall k, In (OChild k c d) a -> In (OChildRet k c d) a.
(** the contexts that a cancellation of [c] has to reach: [c]; the context of a handler that has taken a request issued
    through a context reached, and has not answered it itself; a child, not yet Done when cancelled *)
Inductive reach (tr : list obs) (c : nat) : nat -> Prop :=
| reach_self : reach tr c c
| reach_handler y k r z : reach tr c y -> In (ONewRet k y r) tr -> settled tr y r -> In (OHandle r z) tr ->
    (forall v, In (ODeliver r v) tr -> v = RcCanceled) -> reach tr c z
| reach_child y k d : reach tr c y -> In (OChildRet k y d) tr -> settled_child tr y d ->
    (forall a b, tr = a ++ ODone d :: b -> exists g, In (OSet g d) a) -> reach tr c d.
