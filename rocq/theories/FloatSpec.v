(** Floating point numbers by their values. *)
From Coq Require Import ZArith List Bool Arith.
Import ListNotations.
From Verif Require Import Base PrimModel CodecModel FloatModel.
Open Scope Z_scope.

Definition is32 (b : Z) : Prop := 0 <= b < 2 ^ 32.
Definition is64 (b : Z) : Prop := 0 <= b < 2 ^ 64.
(** neither infinite nor a NaN *)
Definition finite32 (b : Z) : Prop := exp32 b <> 255.
Definition finite64 (b : Z) : Prop := exp64 b <> 2047.
(** the absolute value, in units of 2^-149 and of 2^-1074; exponent 0: subnormal *)
Definition mag32 (b : Z) : Z := if exp32 b =? 0 then man32 b else (2 ^ 23 + man32 b) * 2 ^ (exp32 b - 1).
Definition mag64 (b : Z) : Z := if exp64 b =? 0 then man64 b else (2 ^ 52 + man64 b) * 2 ^ (exp64 b - 1).
Definition nan32 (b : Z) : Prop := exp32 b = 255 /\ man32 b <> 0.
(** the first bit of the mantissa tells a quiet NaN *)
Definition signaling32 (b : Z) : Prop := nan32 b /\ man32 b < 2 ^ 22.

(** no float32 in the value, skipped fields apart, is a signaling NaN *)
Fixpoint calm (t : ty) : val t -> Prop :=
  match t return val t -> Prop with
  | TNum F32 => fun b => is32 b /\ ~ signaling32 b
  | TNum _ | TVar _ | TStr => fun _ => True
  | TArr _ t | TSl t => Forall (calm t)
  | TPtr t => fun v => match v with None => True | Some v => calm t v end
  | TStruct fs => calm_flds fs
  end
with calm_flds (fs : flds) : vals fs -> Prop :=
  match fs return vals fs -> Prop with
  | FNil => fun _ => True
  | FCons tg t fs => fun x => let '(v, vs) := x in match tg with TgSkip => True | _ => calm t v end /\ calm_flds fs vs
  end.
