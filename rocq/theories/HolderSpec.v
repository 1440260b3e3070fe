(** What a user of a client connection relies on, in terms of the frames exchanged and the completions of
    requests only. *)
From Coq Require Import ZArith List Bool.
Import ListNotations.
From Verif Require Import HolderModel.
Open Scope Z_scope.

(** the frames sent, oldest first *)
Definition wires (t : list obs) : list (Z * rid) := flat_map (fun o => match o with OWire i r => [(i, r)] | _ => [] end) t.
(** the completions, oldest first *)
Definition dones (t : list obs) : list (rid * outcome) := flat_map (fun o => match o with ODone r c => [(r, c)] | _ => [] end) t.

(** A frame awaiting its answer: wire id, request, and how many frames had been sent before it. *)
Record waiting := mkWait { w_id : Z; w_req : rid; w_nth : Z }.
(** the frames sent and not answered: an answer with id [i] answers the oldest one with that id *)
Fixpoint answer (l : list waiting) (i : Z) : list waiting :=
  match l with [] => [] | w :: l => if w_id w =? i then l else w :: answer l i end.
Definition track (s : list waiting * Z) (o : obs) : list waiting * Z :=
  match o with
  | OWire i r => (fst s ++ [mkWait i r (snd s)], snd s + 1)
  | OGot i _ _ => (answer (fst s) i, snd s)
  | _ => s
  end.
Definition tracked (t : list obs) : list waiting * Z := fold_left track t ([], 0).
Definition unanswered (t : list obs) : list waiting := fst (tracked t).
Definition nsent (t : list obs) : Z := snd (tracked t).

(** the peer answers only what it was asked, and each frame at most once *)
Definition polite (t : list obs) : Prop :=
  forall p i code body q, t = p ++ OGot i code body :: q -> In i (map w_id (unanswered p)).
(** every frame is answered before 2^31 - 2^10 further frames are sent on the connection *)
Definition timely (t : list obs) : Prop :=
  forall p i r q, t = p ++ OWire i r :: q -> Forall (fun w => nsent p - w_nth w < 2 ^ 31 - 2 ^ 10) (unanswered p).

(** the k-th id of the cycle 1, 2, ..., 2^32 - 2, 1, ... *)
Definition nth_id (k : Z) : Z := 1 + k mod (2 ^ 32 - 2).
