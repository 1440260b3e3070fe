(** The types whose decoder copes with any input. *)
From Coq Require Import ZArith List Bool Arith.
Import ListNotations.
From Verif Require Import Base PrimModel CodecModel.
Open Scope Z_scope.

(** the number in a prefix may come out negative: size(ber), size(i64), cnt(ber), cnt(i64) *)
Definition negative (p : pk) : bool := match p with PBer | P64 => true | _ => false end.
(** size() in front of a type: no number decodes to a negative length of a slice *)
Fixpoint size_safe (p : pk) (t : ty) : bool :=
  match t with
  | TPtr t => match t with TVar _ => false | _ => size_safe p t end
  | t => (0 <=? sz0 true t) || negb (negative p)
  end.
(** the bytes of the value are taken as a tail of the given size *)
Fixpoint size_tail (t : ty) : bool :=
  match t with
  | TPtr t => size_tail t
  | TSl t => (sz0 true (TSl t) <? 0) && (sz0 true t <=? 0)
  | t => sz0 true t <? 0
  end.
(** cnt() in front of a type *)
Fixpoint cnt_safe (p : pk) (t : ty) : bool :=
  match t with
  | TPtr t => match t with TVar _ => false | _ => cnt_safe p t end
  | TSl _ => negb (negative p)
  | TStr => false
  | _ => true
  end.
(** every value takes at least one byte *)
Fixpoint eats (t : ty) : bool :=
  match t with
  | TNum _ | TVar _ | TStr | TSl _ => true
  | TArr _ _ | TPtr _ => false
  | TStruct fs => eats_flds fs
  end
with eats_flds (fs : flds) : bool :=
  match fs with
  | FNil => false
  | FCons tg t fs => (negb (drop true tg t) && match tg with TgSize _ | TgCnt _ => true | TgAuto => eats t | _ => false end) || eats_flds fs
  end.
Fixpoint safe (m : mode) (t : ty) : bool :=
  match t with
  | TNum _ | TVar _ | TStr => true
  | TArr _ t => safe Auto t
  | TSl t =>
      match m with
      | Tail => match t with TNum U8 => true | TNum _ => false | _ => safe Auto t && eats t end
      | _ => safe Auto t
      end
  | TPtr t => match m with Tail => safe Tail t | _ => safe Fixed t end
  | TStruct fs => safe_flds (match m with Tail => Tail | _ => Fixed end) fs
  end
with safe_flds (m : mode) (fs : flds) : bool :=
  match fs with
  | FNil => true
  | FCons tg t fs =>
      (drop true tg t ||
       match tg with
       | TgSize p => if is_bytes t then negb (negative p) else size_safe p t && safe Fixed t && (negb (size_tail t) || safe Tail t)
       | TgCnt p => if is_bytes t then negb (negative p) else cnt_safe p t && safe Fixed t
       | TgNo => safe m t
       | _ => safe Auto t
       end) && safe_flds m fs
  end.
(** whose decoder can be built, and copes with any input *)
Definition readable (t : ty) : bool := match Sz true t with None => false | Some _ => safe Auto t end.
Definition tail_readable (t : ty) : bool :=
  match t with
  | TSl (TNum _) => true
  | t => match Sz true t with None => false | Some _ => safe Tail t end
  end.
