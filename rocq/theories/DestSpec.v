(** Responses with tuples, and what they leave in a variable. *)
From Coq Require Import ZArith List Bool Arith.
Import ListNotations.
From Verif Require Import Base PrimModel PrimSpec CodecModel CodecSpec SboxModel SboxSpec SafeSpec.
Open Scope Z_scope.

(** a response: the number of tuples, then each tuple after its size *)
Definition response (ts : list tuple) : list Z := le_enc 4 (zlen ts) ++ flat_map sized_bytes ts.
(** a tuple that fits the 32 bits of its size *)
Definition sendable (f : tuple) : Prop := tuple_ok f /\ zlen (flat_map field_bytes f) < 2 ^ 32.

(** ** Structs and tuples of another length *)
(** the bytes [b] are those of a value like [x] *)
Definition stands_for (t : ty) (b : list Z) (x : val t) : Prop := exists v, ffit t v /\ lay false t v = b /\ same t v x.
(** the leading fields of the tuple can be read as the fields of the struct; there may be fewer or more of them *)
Fixpoint suits (f : tuple) (fs : flds) : Prop :=
  match fs with
  | FNil => True
  | FCons TgSkip _ fs => suits f fs
  | FCons _ t fs => match f with [] => True | b :: f => (exists v, ffit t v /\ lay false t v = b) /\ suits f fs end
  end.
(** the struct holds the leading fields of the tuple; skipped fields, and those the tuple does not have, are as before *)
Fixpoint filled (f : tuple) (fs : flds) : vals fs -> vals fs -> Prop :=
  match fs return vals fs -> vals fs -> Prop with
  | FNil => fun _ _ => True
  | FCons tg t fs => fun olds news =>
      let '(old, olds) := olds in let '(new, news) := news in
      match tg with
      | TgSkip => new = old /\ filled f fs olds news
      | _ =>
          match f with
          | [] => new = old /\ filled [] fs olds news
          | b :: f => stands_for t b new /\ filled f fs olds news
          end
      end
  end.

(** ** Types that can be read from any bytes *)
(** the length of a field may come out negative: only types of constant size are safe *)
Definition field_safe (t : ty) : bool := negb (is_bytes t) && size_safe PBer t && safe Fixed t && (negb (size_tail t) || safe CodecModel.Tail t).
Fixpoint fields_safe (fs : flds) : bool :=
  match fs with FNil => true | FCons tg t fs => (drop true tg t || field_safe t) && fields_safe fs end.
(** numbers, [n]byte, slices (but []byte) and structs of types of constant size, pointers to these *)
Fixpoint tuple_safe (t : ty) : bool :=
  match t with
  | TNum _ => true
  | TArr _ (TNum U8) => true
  | TSl (TNum U8) => false
  | TSl t => field_safe t
  | TPtr t => tuple_safe t
  | TStruct fs => fields_safe fs
  | _ => false
  end.
