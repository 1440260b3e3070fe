(** Specification of the primitive layer of marshal. *)
From Coq Require Import ZArith List Bool Arith.
Import ListNotations.
From Verif Require Import Base PrimModel.
Open Scope Z_scope.

(** Big-endian base-128 numerals: all but the last group carry the bit 0x80. [groups] are the
    seven-bit digits, most significant first. *)
Fixpoint digits_value (acc : Z) (ds : list Z) : Z :=
  match ds with [] => acc | d :: ds => digits_value (acc * 128 + d) ds end.
Fixpoint mark (ds : list Z) : list Z :=
  match ds with [] => [] | [d] => [d] | d :: ds => (d + 128) :: mark ds end.
Definition digit_ok (d : Z) : Prop := 0 <= d < 128.

(** the range of a kind *)
Definition kind_ok (k : kind) (x : Z) : Prop :=
  if signed k then - 2 ^ (8 * Z.of_nat (width k) - 1) <= x < 2 ^ (8 * Z.of_nat (width k) - 1)
  else 0 <= x < 2 ^ (8 * Z.of_nat (width k)).
(** the two's complement little-endian layout of one number *)
Definition layout (k : kind) (x : Z) : list Z :=
  le_enc (width k) (if x <? 0 then x + 2 ^ (8 * Z.of_nat (width k)) else x).

(** what a primitive write should append ([None]: nothing is claimed) *)
Definition call_ok (c : wcall) : Prop :=
  match c with
  | WFixed k x => True
  | WVar i => 0 <= i < 2 ^ 64
  | WBytes b => True
  | WSlice k xs => True
  | WFloat64sl xs => False
  end.
Definition appended (c : wcall) : list Z :=
  match c with
  | WFixed k x => le_enc (width k) (to_bits k x)
  | WVar i => var_bytes i
  | WBytes b => b
  | WSlice k xs => flat_map (fun x => le_enc (width k) (to_bits k x)) xs
  | WFloat64sl xs => flat_map (fun x => le_enc 8 x) xs
  end.

(** Histories of one Writer. *)
Inductive wop := OCall (c : wcall) | OWritten | OReset | ODefSize (d : Z).
(** final writer and the slices returned by Written, oldest first *)
Fixpoint wrun (w : writer) (ops : list wop) : option (writer * list slice) :=
  match ops with
  | [] => Some (w, [])
  | OCall c :: ops => match w_call w c with None => None | Some w => wrun w ops end
  | OWritten :: ops =>
      let '(w, s) := w_Written w in
      match wrun w ops with None => None | Some (w', l) => Some (w', s :: l) end
  | OReset :: ops => wrun (w_Reset w) ops
  | ODefSize d :: ops => wrun (mkWr (w_mem w) (w_buf w) d) ops
  end.
(** the byte strings Written should return: everything appended since the last Written or Reset *)
Fixpoint expected (acc : list Z) (ops : list wop) : list (list Z) :=
  match ops with
  | [] => []
  | OCall c :: ops => expected (acc ++ appended c) ops
  | OWritten :: ops => acc :: expected [] ops
  | OReset :: ops => expected [] ops
  | ODefSize _ :: ops => expected acc ops
  end.
(** what is in the Writer at the end *)
Fixpoint pending (acc : list Z) (ops : list wop) : list Z :=
  match ops with
  | [] => acc
  | OCall c :: ops => pending (acc ++ appended c) ops
  | OWritten :: ops => pending [] ops
  | OReset :: ops => pending [] ops
  | ODefSize _ :: ops => pending acc ops
  end.
