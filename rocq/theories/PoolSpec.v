(** What callers of marshal.Write rely on. *)
From Coq Require Import List Bool Arith ZArith.
Import ListNotations.
From Verif Require Import Base PrimModel CodecModel PoolModel.
Open Scope nat_scope.

(** the bytes the actions stand for: what a call alone, with Writers of its own, appends *)
Fixpoint bytes_of (a : act) : list Z :=
  match a with
  | Emit c => put c                                  (* what c alone leaves in a new buffer, CodecModel.v *)
  | Sized sz body => let b := flat_map bytes_of body in put (sz (length b)) ++ b
  | Boom => []
  end.
(** nothing in the value panics *)
Fixpoint calm (a : act) : bool := match a with Emit _ => true | Sized _ body => forallb calm body | Boom => false end.
(** steps a call needs *)
Fixpoint steps (a : act) : nat := match a with Emit _ => 1 | Sized _ body => 5 + list_sum (map steps body) | Boom => 1 end.
Definition ended (c : pc) : Prop := match c with PRet _ _ | PPanic => True | _ => False end.
(** two slices share no byte *)
Definition apart (o : nat) (s : slice) (o' : nat) (s' : slice) : Prop :=
  o <> o' \/ s_arr s <> s_arr s' \/ s_off s + s_len s <= s_off s' \/ s_off s' + s_len s' <= s_off s.
