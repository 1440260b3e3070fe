(** Specification of the reflective codec: the documented layout, the values a field can carry, and the
    class of types for which the code keeps its promises. *)
From Coq Require Import ZArith List Bool Arith.
Import ListNotations.
From Verif Require Import Base PrimModel PrimSpec CodecModel.
Open Scope Z_scope.

(** ** Documented layout *)
(** a size or count prefix of the width asked for, little-endian, or a base-128 numeral *)
Definition pre (p : pk) (n : Z) : list Z :=
  match p with PBer => var_bytes n | P8 => le_enc 1 n | P16 => le_enc 2 n | P32 => le_enc 4 n | P64 => le_enc 8 n end.
(** the number of elements a cnt() prefix announces *)
Definition count (t : ty) : val t -> Z :=
  match t return val t -> Z with
  | TStr => fun v => zlen v
  | TArr n _ => fun v => Z.of_nat n
  | TSl _ => fun v => zlen v
  | TPtr t => fun v => match v with None => 0 | Some v =>
      match t return val t -> Z with TArr n _ => fun _ => Z.of_nat n | _ => fun _ => 1 end v end
  | _ => fun _ => 1
  end.
(** [auto]: strings and slices start with a uint32 element count *)
Fixpoint lay (auto : bool) (t : ty) : val t -> list Z :=
  match t return val t -> list Z with
  | TNum k => fun v => layout k v
  | TVar _ => fun v => var_bytes v
  | TStr => fun v => (if auto then le_enc 4 (zlen v) else []) ++ v
  | TArr _ t => fun v => flat_map (lay true t) v
  | TSl t => fun v => (if auto then le_enc 4 (zlen v) else []) ++ flat_map (lay true t) v
  | TPtr t => fun v => match v with None => [] | Some v => lay auto t v end
  | TStruct fs => lays fs
  end
with lays (fs : flds) : vals fs -> list Z :=
  match fs return vals fs -> list Z with
  | FNil => fun _ => []
  | FCons tg t fs => fun vs =>
      let '(v, vs) := vs in
      match tg with
      | TgSkip => []
      | TgAuto => lay true t v
      | TgSize p => pre p (zlen (lay false t v)) ++ lay false t v
      | TgCnt p => pre p (count t v) ++ lay false t v
      | TgNo => lay false t v
      end ++ lays fs vs
  end.

(** ** Values that the layout can carry: numbers in range, lengths that fit their prefixes *)
Definition pfits (p : pk) (n : Z) : Prop :=
  match p with PBer => n < 2 ^ 63 | P8 => n < 2 ^ 8 | P16 => n < 2 ^ 16 | P32 => n < 2 ^ 32 | P64 => n < 2 ^ 63 end.
(** a number whose base-128 size is computed right (see C17) *)
Definition size_right (x : Z) : Prop := ~ exists k, x / 128 ^ Z.of_nat k = 128.
Definition ber_sizes_right (t : ty) : val t -> Prop :=
  match t return val t -> Prop with
  | TVar _ => size_right
  | TArr _ t => match t return list (val t) -> Prop with TVar _ => Forall size_right | _ => fun _ => True end
  | TSl t => match t return list (val t) -> Prop with TVar _ => Forall size_right | _ => fun _ => True end
  | _ => fun _ => True
  end.
Fixpoint fits (t : ty) : val t -> Prop :=
  match t return val t -> Prop with
  | TNum k => fun v => kind_ok k v
  | TVar k => fun v => 0 <= v < 256 ^ Z.of_nat (width k)
  | TStr => fun v => bytes_ok v /\ zlen v < 2 ^ 32
  | TArr n t => fun v => length v = n /\ Forall (fits t) v
  | TSl t => fun v => zlen v < 2 ^ 32 /\ Forall (fits t) v
  | TPtr t => fun v => match v with None => True | Some v => fits t v end
  | TStruct fs => fits_flds fs
  end
with fits_flds (fs : flds) : vals fs -> Prop :=
  match fs return vals fs -> Prop with
  | FNil => fun _ => True
  | FCons tg t fs => fun vs =>
      let '(v, vs) := vs in
      match tg with
      | TgSkip => True
      | TgSize p => fits t v /\ pfits p (zlen (lay false t v)) /\ ber_sizes_right t v
      | TgCnt p => fits t v /\ pfits p (count t v)
      | _ => fits t v
      end /\ fits_flds fs vs
  end.
(** a variable to decode into: any contents, arrays of the declared length *)
Fixpoint shaped (t : ty) : val t -> Prop :=
  match t return val t -> Prop with
  | TArr n t => fun v => length v = n /\ Forall (shaped t) v
  | TSl t => fun v => Forall (shaped t) v
  | TPtr t => fun v => match v with None => True | Some v => shaped t v end
  | TStruct fs => shaped_flds fs
  | _ => fun _ => True
  end
with shaped_flds (fs : flds) : vals fs -> Prop :=
  match fs return vals fs -> Prop with
  | FNil => fun _ => True
  | FCons _ t fs => fun vs => let '(v, vs) := vs in shaped t v /\ shaped_flds fs vs
  end.
(** equal except for fields tagged skip, which are not transmitted *)
Fixpoint same (t : ty) : val t -> val t -> Prop :=
  match t return val t -> val t -> Prop with
  | TArr _ t | TSl t => fun v v' => Forall2 (same t) v v'
  | TPtr t => fun v v' => match v, v' with None, None => True | Some x, Some y => same t x y | _, _ => False end
  | TStruct fs => same_flds fs
  | _ => eq
  end
with same_flds (fs : flds) : vals fs -> vals fs -> Prop :=
  match fs return vals fs -> vals fs -> Prop with
  | FNil => fun _ _ => True
  | FCons tg t fs => fun vs ws =>
      let '(v, vs) := vs in let '(w, ws) := ws in
      match tg with TgSkip => True | _ => same t v w end /\ same_flds fs vs ws
  end.
Fixpoint no_skip (t : ty) : bool :=
  match t with
  | TArr _ t | TSl t | TPtr t => no_skip t
  | TStruct fs => no_skips fs
  | _ => true
  end
with no_skips (fs : flds) : bool :=
  match fs with FNil => true | FCons tg t fs => match tg with TgSkip => false | _ => no_skip t end && no_skips fs end.

(** ** Types for which the code works *)

(** the length of the layout of a type, if all its values have the same *)
Definition pre_len (p : pk) (n : Z) : Z := match p with PBer => zlen (var_bytes n) | P8 => 1 | P16 => 2 | P32 => 4 | P64 => 8 end.
Definition count_const (t : ty) : option Z :=
  match t with TNum _ | TVar _ | TStruct _ => Some 1 | TArr n _ => Some (Z.of_nat n) | _ => None end.
Definition oplus (a b : option Z) : option Z := match a, b with Some a, Some b => Some (a + b) | _, _ => None end.
Fixpoint fixed_size (t : ty) : option Z :=
  match t with
  | TNum k => Some (Z.of_nat (width k))
  | TArr n t => match fixed_size t with Some s => Some (Z.of_nat n * s) | None => None end
  | TStruct fs => fixed_sizes fs
  | _ => None
  end
with fixed_sizes (fs : flds) : option Z :=
  match fs with
  | FNil => Some 0
  | FCons tg t fs =>
      oplus match tg with
      | TgSkip => Some 0
      | TgAuto | TgNo => fixed_size t
      | TgSize p => match fixed_size t with Some s => Some (pre_len p s + s) | None => None end
      | TgCnt p => match fixed_size t, count_const t with Some s, Some c => Some (pre_len p c + s) | _, _ => None end
      end (fixed_sizes fs)
  end.
(** both sides compute the right static size for the type: its fixed size, or "unknown" *)
Definition truthful (t : ty) : bool :=
  let right rd := match Sz rd t, fixed_size t with
    | Some s, Some s' => s =? s'
    | Some s, None => s =? -1
    | None, _ => false
    end in
  right false && right true.
Definition unsigned (k : kind) : bool := match k with U8 | U16 | U32 | U64 => true | _ => false end.
(** the layout (with count prefix) of every value has at least one byte *)
Fixpoint nonempty (t : ty) : bool :=
  match t with
  | TNum _ | TVar _ | TStr | TSl _ => true
  | TArr n t => negb (Nat.eqb n 0) && nonempty t
  | TPtr _ => false
  | TStruct fs => nonempties fs
  end
with nonempties (fs : flds) : bool :=
  match fs with
  | FNil => false
  | FCons tg t fs =>
      match tg with TgSkip => false | TgAuto => nonempty t | TgSize _ | TgCnt _ => true | TgNo => false end || nonempties fs
  end.
Definition not_i64 (p : pk) : bool := match p with P64 => false | _ => true end.
Definition is_num (t : ty) : bool := match t with TNum _ => true | _ => false end.
(** an element of a slice or array *)
Definition elem_ok (good : ty -> bool) (addr : bool) (t : ty) : bool :=
  match t with
  | TNum F64 => negb addr        (* Float64sl *)
  | TNum _ => true
  | _ => good t
  end.
(** [goodA]: written by WriteAuto and read by Auto. [addr]: the value is reached through a pointer or slice. *)
Fixpoint goodA (addr : bool) (t : ty) : bool :=
  match t with
  | TNum _ => true
  | TVar k => unsigned k
  | TStr => true
  | TArr _ (TVar _) => false     (* a ber array without prefix: the writer adds a count, the reader does not expect it *)
  | TArr _ t => elem_ok (goodA addr) addr t
  | TSl t => elem_ok (goodA true) true t
  | TPtr _ => false              (* nil panics the writer, the reader skips nil *)
  | TStruct fs => goodF addr false fs
  end
(** fields. [tail]: the struct is read by Tail, so that its last field may be size(no) *)
with goodF (addr tail : bool) (fs : flds) : bool :=
  match fs with
  | FNil => true
  | FCons tg t fs =>
      match tg with
      | TgSkip => true
      | TgAuto =>
          Bool.eqb (drop false tg t) (drop true tg t) &&
          (if drop false tg t then match fixed_size t with Some 0 => true | _ => false end else true) &&
          goodA addr t
      | TgSize p =>
          not_i64 p &&
          match t with
          | TStr => true
          | TSl t =>
              match t with
              | TNum F64 => false
              | TNum _ => true
              | _ => goodA true t && truthful t && nonempty t && negb (sz0 true t =? 0)
              end
          | TArr n (TVar k) => unsigned k
          | TArr _ _ => goodA addr t && truthful t
          | TPtr t => goodA true t && truthful t && match fixed_size t with Some s => 0 <? s | None => false end
          | TStruct fs => goodF addr (sz0 true t <? 0) fs && truthful t
          | _ => goodA addr t
          end
      | TgCnt p =>
          not_i64 p &&
          match t with
          | TArr n (TVar k) => unsigned k
          | TPtr t => goodA true t && match t with TNum _ | TStruct _ => true | TArr n _ => negb (Nat.eqb n 0) | _ => false end
          | _ => goodA addr t
          end
      | TgNo =>
          (match fs with FNil => true | _ => false end) && negb (drop false tg t) && negb (drop true tg t) &&
          if tail then
            match t with
            | TStr => true
            | TSl (TNum U8) => true
            | TSl (TNum _) => false  (* XslValTail panics *)
            | TSl t => goodA true t && nonempty t
            | TArr n (TVar k) => unsigned k
            | TStruct fs => goodF addr true fs
            | _ => goodA addr t
            end
          else match t with TStr | TSl _ => false | TArr n (TVar k) => unsigned k | _ => goodA addr t end
      end && goodF addr tail fs
  end.

(** a type that can be passed to Write and Read *)
Definition good (t : ty) : bool :=
  match Sz false t, Sz true t with Some _, Some _ => goodA false t | _, _ => false end.
