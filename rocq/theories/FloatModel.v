(** The way of a float32 through package reflect. The other models give floats by their bit patterns and let them pass
    unchanged. The code does not: reflect.Value.Float gives a float32 as a float64, which Float32Val and the slow path of
    Float32slVal make a float32 again (marshal/writer.go:209-211, writer_any.go:236-252), and Float32Val of a Reader stores
    a float64 with SetFloat, which makes it a float32 (marshal/reader.go:199-201). Each time the bits go through [widen]
    and [narrow].

    Simplifications: the conversions are those of IEEE 754 with rounding to the nearest, ties to even, and a signaling
    NaN is made quiet by each, as amd64 does. A call of Read that reports an error leaves floats it has not
    reached as they were; [ReadF] is about calls without one. *)
From Coq Require Import ZArith List Bool Arith.
Import ListNotations.
From Verif Require Import Base PrimModel CodecModel.
Open Scope Z_scope.

(** ** Bit patterns: sign, exponent, mantissa; math.Float32bits and math.Float64bits, marshal/writer_any.go:47, 53 *)
Definition sign32 (b : Z) : Z := b / 2 ^ 31.
(** marshal/writer_any.go:47 *)
Definition exp32 (b : Z) : Z := (b / 2 ^ 23) mod 2 ^ 8.
(** marshal/writer_any.go:47 *)
Definition man32 (b : Z) : Z := b mod 2 ^ 23.
(** marshal/writer_any.go:47 *)
Definition pack32 (s e m : Z) : Z := s * 2 ^ 31 + (e * 2 ^ 23 + m).
(** marshal/writer_any.go:53 *)
Definition sign64 (b : Z) : Z := b / 2 ^ 63.
(** marshal/writer_any.go:53 *)
Definition exp64 (b : Z) : Z := (b / 2 ^ 52) mod 2 ^ 11.
(** marshal/writer_any.go:53 *)
Definition man64 (b : Z) : Z := b mod 2 ^ 52.
(** marshal/writer_any.go:53 *)
Definition pack64 (s e m : Z) : Z := s * 2 ^ 63 + (e * 2 ^ 52 + m).

(** ** Conversions *)
(** float64(x) of a float32: marshal/reader.go:200; in reflect for v.Float(), marshal/writer.go:210, writer_any.go:248 *)
Definition widen (b : Z) : Z :=
  let s := sign32 b in let e := exp32 b in let m := man32 b in
  if e =? 255 then pack64 s 2047 (if m =? 0 then 0 else 2 ^ 51 + (m mod 2 ^ 22) * 2 ^ 29)
  else if e =? 0 then
    if m =? 0 then pack64 s 0 0
    else let k := Z.log2 m in pack64 s (k + 874) ((m - 2 ^ k) * 2 ^ (52 - k))
  else pack64 s (e + 896) (m * 2 ^ 29).
(** the integer nearest to n / 2^d, the even one of two *)
Definition nearest (n d : Z) : Z :=
  if d <=? 0 then n * 2 ^ (- d)
  else
    let a := n / 2 ^ d in let r := n mod 2 ^ d in
    if 2 * r <? 2 ^ d then a else if 2 ^ d <? 2 * r then a + 1 else if Z.even a then a else a + 1.
(** float32(x) of a float64: marshal/writer.go:210, writer_any.go:248; in reflect for SetFloat, marshal/reader.go:200 *)
Definition narrow (b : Z) : Z :=
  let s := sign64 b in let e := exp64 b in let m := man64 b in
  if e =? 2047 then pack32 s 255 (if m =? 0 then 0 else 2 ^ 22 + (m / 2 ^ 29) mod 2 ^ 22)
  else
    let n := if e =? 0 then m else 2 ^ 52 + m in
    let x := Z.max e 1 - 1075 in                       (* the value is n * 2^x *)
    let q := Z.max (-149) (Z.log2 n + x - 23) in       (* the result is a multiple of 2^q *)
    s * 2 ^ 31 + Z.min (255 * 2 ^ 23) ((q + 149) * 2 ^ 23 + nearest n (q - x)).

(** ** The calls *)
(** Writer.Float32Val(v), marshal/writer.go:209-211 *)
Definition wFloat32Val (b : Z) : list Z := put (WFixed F32 (narrow (widen b))).
(** Reader.Float32Val(v), marshal/reader.go:199-201 *)
Definition rFloat32Val (s : st) : out (Z * st) := do! (x, s) <- call (RFixed F32) s; Ok (narrow (widen (num x)), s).
(** Writer.Float32slVal(v), marshal/writer_any.go:236-252: elements that can be addressed are written as they are *)
Definition wFloat32slVal (addr : bool) (xs : list Z) : list Z :=
  match xs with
  | [] => []
  | _ => if addr then put (WSlice F32 xs) else flat_map wFloat32Val xs
  end.

(** ** Values of any type *)
(** the value as it goes out or comes in, by fields and elements: Float32Val for the fields, Float32slVal for slices and
    arrays; marshal/writer_reflect.go:374-530, marshal/reader_reflect.go:559-770. [addr]: it can be addressed *)
Fixpoint conv (addr : bool) (t : ty) : val t -> val t :=
  match t return val t -> val t with
  | TNum F32 => fun b => narrow (widen b)
  | TNum _ | TVar _ | TStr => fun b => b
  | TArr n t =>
      let f := conv addr t in
      match t return (val t -> val t) -> list (val t) -> list (val t) with
      | TNum _ => fun f l => if addr then l else map f l
      | _ => fun f l => map f l
      end f
  | TSl t =>
      let f := conv true t in
      match t return (val t -> val t) -> list (val t) -> list (val t) with
      | TNum _ => fun _ l => l
      | _ => fun f l => map f l
      end f
  | TPtr t => option_map (conv true t)
  | TStruct fs => conv_flds addr fs
  end
with conv_flds (addr : bool) (fs : flds) : vals fs -> vals fs :=
  match fs return vals fs -> vals fs with
  | FNil => fun x => x
  | FCons tg t fs => fun x => let '(v, vs) := x in (match tg with TgSkip => v | _ => conv addr t v end, conv_flds addr fs vs)
  end.
(** marshal.Write, marshal/marshal.go:43-59, writer_reflect.go:14-93: numbers themselves are written without reflect *)
Definition WriteF (t : ty) : val t -> out (list Z) :=
  match t return val t -> out (list Z) with
  | TNum k => Write (TNum k)
  | t => fun v => Write t (conv false t v)
  end.
(** Reader.Read, marshal/reader_reflect.go:16-176 *)
Definition ReadF (t : ty) : val t -> st -> out (val t * st) :=
  match t return val t -> st -> out (val t * st) with
  | TNum k => Read (TNum k)
  | t => fun old s => do! (x, s) <- Read t old s; Ok (conv true t x, s)
  end.
