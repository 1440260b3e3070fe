(** Bytes in which no base-128 number can come out as a negative length, and the types whose decoder copes
    with any such bytes. *)
From Coq Require Import ZArith List Bool Arith.
Import ListNotations.
From Verif Require Import Base PrimModel CodecModel SafeSpec.
Open Scope Z_scope.

(** no nine bytes in a row have the highest bit set. A number of 2^63 or more takes ten bytes in base 128, and
    all but the last of them have it set. *)
Definition tame (b : list Z) : Prop := forall u nine v, b = u ++ nine ++ v -> length nine = 9%nat -> ~ Forall (fun x => 128 <= x) nine.

(** size(i64), cnt(i64): eight bytes, of any value *)
Definition wild (p : pk) : bool := match p with P64 => true | _ => false end.
(** size() in front of a type, as [SafeSpec.size_safe] *)
Fixpoint size_tame (p : pk) (t : ty) : bool :=
  match t with
  | TPtr t => match t with TVar _ => false | _ => size_tame p t end
  | t => (0 <=? sz0 true t) || negb (wild p)
  end.
(** cnt() in front of a type, as [SafeSpec.cnt_safe] *)
Fixpoint cnt_tame (p : pk) (t : ty) : bool :=
  match t with
  | TPtr t => match t with TVar _ => false | _ => cnt_tame p t end
  | TSl _ => negb (wild p)
  | TStr => false
  | _ => true
  end.
Fixpoint tamed (m : mode) (t : ty) : bool :=
  match t with
  | TNum _ | TVar _ | TStr => true
  | TArr _ t => tamed Auto t
  | TSl t =>
      match m with
      | Tail => match t with TNum U8 => true | TNum _ => false | _ => tamed Auto t && eats t end
      | _ => tamed Auto t
      end
  | TPtr t => match m with Tail => tamed Tail t | _ => tamed Fixed t end
  | TStruct fs => tamed_flds (match m with Tail => Tail | _ => Fixed end) fs
  end
with tamed_flds (m : mode) (fs : flds) : bool :=
  match fs with
  | FNil => true
  | FCons tg t fs =>
      (drop true tg t ||
       match tg with
       | TgSize p => if is_bytes t then negb (wild p) else size_tame p t && tamed Fixed t && (negb (size_tail t) || tamed Tail t)
       | TgCnt p => if is_bytes t then negb (wild p) else cnt_tame p t && tamed Fixed t
       | TgNo => tamed m t
       | _ => tamed Auto t
       end) && tamed_flds m fs
  end.
Definition read_tame (t : ty) : bool := match Sz true t with None => false | Some _ => tamed Auto t end.
Definition tail_tame (t : ty) : bool :=
  match t with
  | TSl (TNum _) => true
  | t => match Sz true t with None => false | Some _ => tamed Tail t end
  end.
(** sbox: a field of a tuple, the fields of a struct, a tuple *)
Definition field_tame (t : ty) : bool := is_bytes t || (size_tame PBer t && tamed Fixed t && (negb (size_tail t) || tamed Tail t)).
Fixpoint fields_tame (fs : flds) : bool :=
  match fs with FNil => true | FCons tg t fs => (drop true tg t || field_tame t) && fields_tame fs end.
(** everything but arrays of anything but bytes, whose length the tuple may exceed, and "ber" numbers *)
Fixpoint tuple_tame (t : ty) : bool :=
  match t with
  | TNum _ | TStr => true
  | TArr _ (TNum U8) => true
  | TSl (TNum U8) => true
  | TSl t => field_tame t
  | TPtr t => tuple_tame t
  | TStruct fs => fields_tame fs
  | _ => false
  end.
