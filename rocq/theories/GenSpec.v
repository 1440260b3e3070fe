(** What users rely on when they make requests. *)
From Coq Require Import List Bool Arith.
Import ListNotations.
From Verif Require Import GenModel.

(** the requests that were returned: an array and an index in it is one memory location *)
Definition slots (t : list obs) : list (nat * nat) := flat_map (fun x => match x with OReq _ _ _ a i _ => [(a, i)] | _ => [] end) t.
(** the Ids of the requests of object o, in the order in which they were returned *)
Definition ids (o : nat) (t : list obs) : list nat := flat_map (fun x => match x with OReq _ o' id _ _ _ => if o' =? o then [id] else [] | _ => [] end) t.
(** the objects that were given generator g *)
Definition given (g : nat) (t : list obs) : list nat := flat_map (fun x => match x with OGot o g' => if g' =? g then [o] else [] | _ => [] end) t.
(** the call goroutine k is in *)
Definition cur (t : list obs) (k : nat) : option (nat * value) :=
  fold_left (fun c x => match x with
                        | OCall k' o v => if k' =? k then Some (o, v) else c
                        | OReq k' _ _ _ _ _ | OFail k' _ => if k' =? k then None else c
                        | _ => c
                        end) t None.
(** the context a MultiRequest was made from; any other object stands for itself *)
Definition root (t : list obs) (o : nat) : nat :=
  fold_left (fun r x => match x with OMulti c o' => if o' =? o then c else r | _ => r end) t o.
(** no call on object r, or on one made from it, is under way *)
Definition idle (t : list obs) (r : nat) : Prop := forall k o v, cur t k = Some (o, v) -> root t o <> r.
(** A context and the MultiRequests made from it are used by one goroutine at a time and not after Done of the context; a
    MultiRequest without a context is used by one goroutine at a time and not after Each or Results. *)
Definition exclusive (t : list obs) : Prop := forall t1 x t2, t = t1 ++ x :: t2 ->
  match x with
  | OCall _ o _ | OMulti o _ => idle t1 (root t1 o) /\ ~ In (ODone (root t1 o)) t1
  | ODone o => idle t1 (root t1 o)
  | _ => True
  end.
(** no call of Write panics *)
Definition no_failure (t : list obs) : Prop := forall k o b, ~ In (OCall k o (VEnc b true)) t.
Definition bytes (v : value) : list nat := match v with VBody b | VEnc b _ => b end.
