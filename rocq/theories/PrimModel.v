(** Model of the primitive layer of package marshal: the Writer's buffer and primitive writes
    (marshal/writer.go, writer_any.go) and the Reader's primitive reads (marshal/reader.go,
    reader_any.go).

    Numbers of every kind are mathematical integers in the range of the kind; floats are represented by
    their IEEE bit pattern (math.Float32bits and friends are the identity here). Byte arrays live in an
    explicit memory, so that slices returned earlier can be observed later. [None] is a panic. *)
From Coq Require Import ZArith List Bool Arith.
Import ListNotations.
From Verif Require Import Base.
Open Scope Z_scope.

(** ** Kinds of fixed-width numbers; marshal/writer_any.go:9-55, marshal/writer.go:69-79 *)
Inductive kind := U8 | U16 | U32 | U64 | I8 | I16 | I32 | I64 | F32 | F64.
(** the number of bytes of a kind, marshal/writer_any.go:9-55 *)
Definition width (k : kind) : nat :=
  match k with U8 | I8 => 1 | U16 | I16 => 2 | U32 | I32 | F32 => 4 | U64 | I64 | F64 => 8 end.
(** marshal/reader_any.go:10-112: the kinds read with a conversion to intN *)
Definition signed (k : kind) : bool := match k with I8 | I16 | I32 | I64 => true | _ => false end.
(** uintN(i) of a signed or unsigned number: the bits; marshal/writer_any.go:9-55 *)
Definition to_bits (k : kind) (x : Z) : Z := x mod 256 ^ Z.of_nat (width k).
(** intN(u): reinterpretation of the bits; marshal/reader_any.go:10-112 *)
Definition of_bits (k : kind) (u : Z) : Z :=
  if signed k && (256 ^ Z.of_nat (width k) / 2 <=? u) then u - 256 ^ Z.of_nat (width k) else u.

(** ** Writer *)

(** varu64size, writer.go:81-86, and Varsize, marshal.go:155-160: the loop [for j = 0; i > 1<<7; j++ { i >>= 7 }].
    Fuel 10 is enough for 64 bits. *)
Fixpoint varsize_loop (fuel : nat) (i j : Z) : Z :=
  match fuel with
  | O => j
  | S fuel => if 128 <? i then varsize_loop fuel (Z.shiftr i 7) (j + 1) else j
  end.
(** marshal/writer.go:81-86 *)
Definition varu64size (i : Z) : Z := varsize_loop 10 i 0 + 1.

(** The bytes stored by Uint64var, writer.go:88-129. *)
Definition cont (x : Z) : Z := Z.lor 128 (x mod 256).  (* 0x80 | uint8(x) *)
(** marshal/writer.go:88-129 *)
Fixpoint var_loop (k : nat) (i : Z) (acc : list Z) : list Z :=  (* lines 132-136 *)
  match k with
  | O => acc
  | S k => let i := Z.shiftr i 7 in var_loop k i (cont (Z.land i 127) :: acc)
  end.
(** Uint64var, marshal/writer.go:88-129 *)
Definition var_bytes (i : Z) : list Z :=
  if i <? 2 ^ 7 then [i mod 256]
  else if i <? 2 ^ 14 then [cont (Z.shiftr i 7); Z.land i 127]
  else if i <? 2 ^ 21 then [cont (Z.shiftr i 14); cont (Z.land (Z.shiftr i 7) 127); Z.land i 127]
  else
    let n := if i <? 2 ^ 28 then 4%nat else if i <? 2 ^ 35 then 5%nat else if i <? 2 ^ 42 then 6%nat
             else if i <? 2 ^ 49 then 7%nat else if i <? 2 ^ 56 then 8%nat else if i <? 2 ^ 63 then 9%nat else 10%nat in
    var_loop (n - 1) i [Z.land i 127].

(** A primitive write: ensure(n) followed by stores relative to the old end of the buffer. *)
Inductive wcall :=
| WFixed (k : kind) (x : Z)          (* Uint8..Float64, IntUint8.., IntUint64 is WFixed U32: writer.go:69-79,135-149, writer_any.go:9-55 *)
| WVar (i : Z)                       (* Uint64var, Intvar: writer.go:88-133 *)
| WBytes (b : list Z)                (* Bytes, Uint8sl, String: writer.go:151-167 *)
| WSlice (k : kind) (xs : list Z)    (* Int8sl, Uint16sl, ..., Float32sl: writer.go:169-175, writer_any.go:57-111 *)
| WFloat64sl (xs : list Z).          (* Float64sl: writer_any.go:113-119, stores at l+j*4 *)

(** stores of the element loop: at l + j*stride; marshal/writer_any.go:57-119 *)
Fixpoint sl_stores (stride : nat) (w : nat) (pos : nat) (xs : list Z) : list (nat * list Z) :=
  match xs with
  | [] => []
  | x :: xs => (pos, le_enc w x) :: sl_stores stride w (pos + stride) xs
  end.
(** (n, stores) of a call; marshal/writer.go:64-175, marshal/writer_any.go:9-119 *)
Definition call_stores (c : wcall) : nat * list (nat * list Z) :=
  match c with
  | WFixed k x => (width k, [(0%nat, le_enc (width k) (to_bits k x))])
  | WVar i => (length (var_bytes i), [(0%nat, var_bytes i)])
  | WBytes b => (length b, [(0%nat, b)])
  | WSlice k xs => ((length xs * width k)%nat, sl_stores (width k) (width k) 0 (map (to_bits k) xs))
  | WFloat64sl xs => ((length xs * 8)%nat, sl_stores 4 8 0 xs)
  end.
(** IntUint64, writer.go:135-137: writes 32 bits *)
Definition IntUint64 (i : Z) : wcall := WFixed U32 i.
(** marshal/writer.go:139-141 *)
Definition IntUint32 (i : Z) : wcall := WFixed U32 i.
(** marshal/writer.go:143-145 *)
Definition IntUint16 (i : Z) : wcall := WFixed U16 i.
(** marshal/writer.go:147-149 *)
Definition IntUint8 (i : Z) : wcall := WFixed U8 i.

(** Memory: all byte arrays ever made. A slice is (array, offset, length, capacity). what w.buf of marshal/writer.go:15-18 points to *)
Definition memory := list (list Z).
(** a []byte: w.buf, marshal/writer.go:15-18 *)
Record slice := mkSl { s_arr : nat; s_off : nat; s_len : nat; s_cap : nat }.
(** the bytes of a slice, marshal/writer.go:20-25 *)
Definition sl_bytes (m : memory) (s : slice) : list Z :=
  firstn (s_len s) (skipn (s_off s) (nth (s_arr s) m [])).
(** bookkeeping: a list with one element replaced *)
Fixpoint upd_nth {A} (l : list A) (n : nat) (v : A) : list A :=
  match l, n with
  | [], _ => []
  | _ :: l, O => v :: l
  | x :: l, S n => x :: upd_nth l n v
  end.
(** Writer, writer.go:15-18 *)
Record writer := mkWr { w_mem : memory; w_buf : slice; w_def : Z }.

(** ceilLog, writer.go:32-42 *)
Definition ceilLog (n : Z) : Z :=
  let n := if 0 <? n then Z.shiftr (n - 1) 2 else n in
  let n := Z.lor n (Z.shiftr n 3) in
  let n := Z.lor n (Z.shiftr n 2) in
  let n := Z.lor n (Z.shiftr n 4) in
  let n := Z.lor n (Z.shiftr n 8) in
  let n := Z.lor n (Z.shiftr n 16) in
  Z.shiftl (n + 1) 2.
(** the new capacity chosen by ensure, writer.go:47-55 *)
Definition new_cap (def : Z) (l n : nat) : Z :=
  let c := Z.of_nat (l + n) in
  let def := if def =? 0 then 512 else def in
  if c <=? def then def else ceilLog c.

(** ensure, writer.go:44-62. make panics if the capacity is smaller than the length. *)
Definition w_ensure (w : writer) (n : nat) : option writer :=
  let b := w_buf w in
  let l := s_len b in
  let w1 :=
    if (s_cap b - l <? n)%nat then
      let def := if w_def w =? 0 then 512 else w_def w in
      let nc := new_cap (w_def w) l n in
      if nc <? Z.of_nat l then None
      else
        let fresh := sl_bytes (w_mem w) b ++ repeat 0 (Z.to_nat nc - l) in
        Some (mkWr (w_mem w ++ [fresh]) (mkSl (length (w_mem w)) 0 l (Z.to_nat nc)) def)
    else Some w in
  match w1 with
  | None => None
  | Some w =>
      let b := w_buf w in
      if (s_cap b <? l + n)%nat then None  (* w.buf[:l+n] *)
      else Some (mkWr (w_mem w) (mkSl (s_arr b) (s_off b) (l + n) (s_cap b)) (w_def w))
  end.

(** a store at index [pos] of w.buf; out of range is a panic; marshal/writer.go:69-175 *)
Definition w_store (w : writer) (pos : nat) (b : list Z) : option writer :=
  let s := w_buf w in
  if (s_len s <? pos + length b)%nat then None
  else Some (mkWr (upd_nth (w_mem w) (s_arr s) (overwrite (nth (s_arr s) (w_mem w) []) (s_off s + pos) b)) s (w_def w)).
(** the stores of a call, marshal/writer.go:69-175 *)
Fixpoint w_stores (w : writer) (l : nat) (st : list (nat * list Z)) : option writer :=
  match st with
  | [] => Some w
  | (pos, b) :: st => match w_store w (l + pos) b with None => None | Some w => w_stores w l st end
  end.
(** a call of the Writer: ensure, then the stores; marshal/writer.go:44-175 *)
Definition w_call (w : writer) (c : wcall) : option writer :=
  let '(n, st) := call_stores c in
  match w_ensure w n with
  | None => None
  | Some w' => w_stores w' (s_len (w_buf w)) st
  end.

(** Written, writer.go:20-25 *)
Definition w_Written (w : writer) : writer * slice :=
  let b := w_buf w in
  (mkWr (w_mem w) (mkSl (s_arr b) (s_off b + s_len b) 0 (s_cap b - s_len b)) (w_def w),
   mkSl (s_arr b) (s_off b) (s_len b) (s_len b)).
(** Reset, writer.go:27-30 *)
Definition w_Reset (w : writer) : writer :=
  let b := w_buf w in mkWr (w_mem w) (mkSl (s_arr b) (s_off b) 0 (s_cap b)) (w_def w).
(** &Writer{DefSize: d}: nil buffer; bookkeeping: the assignments of the steps below *)
Definition w_new (d : Z) : writer := mkWr [[]] (mkSl 0 0 0 0) d.

(** ** Reader; marshal/reader.go:18-165 *)
Inductive rerr :=
| EShort        (* not enough data for a fixed-width number or slice *)
| EVarBig       (* varint is too big *)
| EVarShort     (* not enough data for uint64var *)
| ESlice (sz : Z)
| ECodec (code : Z).  (* errors of the reflective layer, CodecModel.v *)
(** Reader, reader.go:12-15 *)
Record rd := mkRd { r_body : list Z; r_err : option rerr }.

(** Uint64var, reader.go:46-64: scan of the body. *)
Fixpoint var_scan (b : list Z) (res : Z) : Z * (rerr + list Z) :=
  match b with
  | [] => (res, inl EVarShort)
  | c :: b =>
      let res := Z.lor (Z.shiftl res 7 mod 2 ^ 64) (Z.land c 127) in
      if c <? 128 then (res, inr b)
      else if (2 ^ 64 - 1) / 2 ^ 7 <? res then (res, inl EVarBig)
      else var_scan b res
  end.

(** A primitive read; bulk reads and Bytes fill the destination given. *)
Inductive rcall :=
| RFixed (k : kind)              (* Uint8..Float64: reader.go:18-43, reader_any.go:10-112; IntUint8/16/32/64 via uintN *)
| RVar                           (* Uint64var, reader.go:46-64 *)
| RBulk (k : kind) (dst : list Z)(* Uint8sl, Bytes, Int8sl, Uint16sl..Float64sl: reader.go:91-130, reader_any.go:114-225 *)
| RSlice (sz : Z)                (* Slice(sz), reader.go:132-143 *)
| RString (sz : Z)               (* String(sz), reader.go:145-156 *)
| RTail.                         (* Tail, reader.go:158-165 *)
Inductive rval := VNum (x : Z) | VNums (l : list Z) | VBytes (l : list Z).

(** the value returned / left in the destination when the Reader has failed before; marshal/reader.go:18-165 *)
Definition zero_val (c : rcall) : rval :=
  match c with
  | RFixed _ | RVar => VNum 0
  | RBulk _ dst => VNums dst
  | RSlice _ | RString _ | RTail => VBytes []
  end.

(** b[i] = conv(le.UintN(r.Body[i*w:])) for i < n; marshal/reader_any.go:114-232 *)
Fixpoint bulk_dec (k : kind) (n : nat) (b : list Z) : list Z :=
  match n with
  | O => []
  | S n => of_bits k (le_dec (firstn (width k) b)) :: bulk_dec k n (skipn (width k) b)
  end.

(** a call of the Reader, marshal/reader.go:18-165, marshal/reader_any.go:10-232 *)
Definition r_call (r : rd) (c : rcall) : option (rval * rd) :=
  match r_err r with
  | Some _ => Some (zero_val c, r)
  | None =>
      let b := r_body r in
      match c with
      | RFixed k =>
          if (length b <? width k)%nat then Some (VNum 0, mkRd b (Some EShort))
          else Some (VNum (of_bits k (le_dec (firstn (width k) b))), mkRd (skipn (width k) b) None)
      | RVar =>
          match var_scan b 0 with
          | (res, inr rest) => Some (VNum res, mkRd rest None)
          | (res, inl e) => Some (VNum res, mkRd b (Some e))
          end
      | RBulk k dst =>
          if (length b <? length dst * width k)%nat then Some (VNums dst, mkRd b (Some EShort))
          else Some (VNums (bulk_dec k (length dst) b), mkRd (skipn (length dst * width k) b) None)
      | RSlice sz | RString sz =>
          if Z.of_nat (length b) <? sz then Some (VBytes [], mkRd b (Some (ESlice sz)))
          else if sz <? 0 then None  (* r.Body[:sz] with a negative bound *)
          else Some (VBytes (firstn (Z.to_nat sz) b), mkRd (skipn (Z.to_nat sz) b) None)
      | RTail => Some (VBytes b, mkRd [] None)
      end
  end.

(** int(i) of a uint64, as in Intvar and IntUint64, reader.go:66-89 *)
Definition to_int (u : Z) : Z := of_bits I64 u.
