(** The sbox (octopus/tarantool) requests and tuples: sbox/writer.go, reader.go, select.go, modify.go, rpc.go,
    result.go. Built on the reflective codec of CodecModel.v.
    Not modelled: types that implement the marshal interfaces, interface{} inside typed containers, maps of
    cached writers, the pooled pair of Readers (only its contents). *)
From Coq Require Import ZArith List Bool Arith.
Import ListNotations.
From Verif Require Import Base PrimModel CodecModel.
Open Scope Z_scope.

(** ** Writing tuples *)

(** marshal.TWriter.WithSize(w, v, Intvar), marshal/writer_reflect.go:303-324 *)
Definition sized (addr : bool) (t : ty) (v : val t) : out (list Z) := with_size PBer (size_of t v) (enc false addr t v).
(** len(Flds) of a struct's writer (marshal/writer_reflect.go:807-809 leaves some fields out) *)
Fixpoint kept (fs : flds) : nat :=
  match fs with FNil => 0 | FCons tg t fs => if drop false tg t then kept fs else S (kept fs) end.
(** the loop over the fields, sbox/writer.go:189-192 *)
Fixpoint sb_flds (addr : bool) (fs : flds) : vals fs -> out (list Z) :=
  match fs return vals fs -> out (list Z) with
  | FNil => fun _ => Ok []
  | FCons tg t fs => fun vs =>
      let '(v, vs) := vs in
      if drop false tg t then sb_flds addr fs vs
      else do! a <- sized addr t v; do! b <- sb_flds addr fs vs; Ok (a ++ b)
  end.
(** TWriter.Write as set by Fill, sbox/writer.go:117-167, for types without sbox tail tags. [addr]: reached
    through a pointer or slice. A "ber" number is a struct field only: not a tuple of its own. *)
Fixpoint sb_write (addr : bool) (t : ty) : val t -> out (list Z) :=
  match t return val t -> out (list Z) with
  | TNum k => fun v => do! b <- sized addr (TNum k) v; Ok (put (WFixed U32 1) ++ b)
  | TVar _ => fun _ => Panic
  | TStr => fun v => do! b <- sized addr TStr v; Ok (put (IntUint32 1) ++ b)
  | TArr n t =>
      match t return list (val t) -> out (list Z) with
      | TNum U8 => fun v => do! b <- sized addr (TArr n (TNum U8)) v; Ok (put (IntUint32 1) ++ b)
      | t => fun v => do! b <- enc_list (sized addr t) v; Ok (put (IntUint32 (zlen v)) ++ b)
      end
  | TSl t =>
      match t return list (val t) -> out (list Z) with
      | TNum U8 => fun v => do! b <- sized addr (TSl (TNum U8)) v; Ok (put (IntUint32 1) ++ b)
      | t => fun v => do! b <- enc_list (sized true t) v; Ok (put (IntUint32 (zlen v)) ++ b)
      end
  | TPtr t => fun v => match v with None => Ok [] | Some v => sb_write true t v end
  | TStruct fs => fun v => do! b <- sb_flds addr fs v; Ok (put (IntUint32 (Z.of_nat (kept fs))) ++ b)
  end.

(** An interface{} argument: nil or a value of a type without interfaces inside. the argument of sbox/writer.go:14 *)
Inductive itf := INil | IVal (t : ty) (v : val t).
(** the argument of WriteTuple: as above, or an []interface{}; sbox/writer.go:14-78 *)
Inductive targ := TOne (i : itf) | TIfs (l : list itf).
(** marshal.Writer.WriteWithSize(i, Intvar), marshal/writer_reflect.go:170-217 *)
Definition WriteWithSize (i : itf) : out (list Z) :=
  match i with
  | INil => Ok []
  | IVal t v =>
      match t return val t -> out (list Z) with
      | TNum k => fun v => Ok (prefix PBer (Z.of_nat (width k)) ++ put (WFixed k v))
      | TStr => fun v => Ok (prefix PBer (zlen v) ++ put (WBytes v))
      | TSl t =>
          match t return list (val t) -> out (list Z) with
          | TNum U8 => fun v => Ok (prefix PBer (zlen v) ++ put (WBytes v))
          | t => fun v => match Sz false (TSl t) with None => Panic | Some _ => sized false (TSl t) v end
          end
      | t => fun v => match Sz false t with None => Panic | Some _ => sized false t v end
      end v
  end.
(** WriteTuple, sbox/writer.go:14-78 *)
Definition write_one (t : ty) : val t -> out (list Z) :=
  match t return val t -> out (list Z) with
  | TNum k => fun v => Ok (put (WFixed U32 1) ++ put (WFixed U8 (Z.of_nat (width k))) ++ put (WFixed k v))
  | TStr => fun v => Ok (put (WFixed U32 1) ++ prefix PBer (zlen v) ++ put (WBytes v))
  | TSl t =>
      match t return list (val t) -> out (list Z) with
      | TNum U8 => fun v => Ok (put (WFixed U32 1) ++ prefix PBer (zlen v) ++ put (WBytes v))
      | t => fun v => match Sz false (TSl t) with None => Panic | Some _ => sb_write false (TSl t) v end
      end
  | t => fun v => match Sz false t with None => Panic | Some _ => sb_write false t v end
  end.
(** sbox/writer.go:14-78 *)
Definition WriteTuple (a : targ) : out (list Z) :=
  match a with
  | TOne INil => Ok []
  | TOne (IVal t v) => write_one t v
  | TIfs l => do! b <- enc_list WriteWithSize l; Ok (put (IntUint32 (zlen l)) ++ b)
  end.

(** ** Structs whose last field is a slice tagged sbox:"tail" or sbox:"tailsplit"; sbox/sbox.go:7-13 *)
Inductive tailkind := Tail | TailSplit.
(** fs.WithSize(w, val, Intvar) where [fs] is the writer of the slice and [val] one element of type [e]
    (sbox/writer.go:194-202): reflect.Value.Len panics on numbers and structs, and the loop over a string or
    []byte hands single bytes to the element's writer, which takes their Len. Other element types are not
    modelled (shown as a panic). *)
Definition tail_elem (e : ty) : val e -> out (list Z) :=
  match e return val e -> out (list Z) with
  | TStr => fun v => match v with [] => Ok (prefix PBer 0) | _ => Panic end
  | TSl e => fun v =>
      match e with
      | TNum U8 => match v with [] => Ok (prefix PBer 0) | _ => Panic end
      | _ => Panic
      end
  | _ => fun _ => Panic
  end.
(** structCnt, sbox/writer.go:169-181: for TailSplit, Flds of the slice's writer is empty.
    [fs] are the fields before the tagged one, [n] the length of the slice. *)
Definition struct_cnt (k : tailkind) (fs : flds) (n : Z) : Z :=
  match k with Tail => Z.of_nat (kept fs) + n | TailSplit => Z.of_nat (kept fs) + n * 0 end.
(** structWriter, sbox/writer.go:183-217, when no field before the tagged one is left out (so that
    v.Field(n) is the tagged field) *)
Definition struct_tail (k : tailkind) (addr : bool) (fs : flds) (vs : vals fs) (e : ty) (xs : list (val e)) : out (list Z) :=
  do! a <- sb_flds addr fs vs;
  do! b <- match k with Tail => enc_list (tail_elem e) xs | TailSplit => Ok [] end;
  Ok (put (IntUint32 (struct_cnt k fs (zlen xs))) ++ a ++ b).

(** ** Reading tuples *)

(** marshal.TReader.WithSize(r, v, Intvar), marshal/reader_reflect.go:445-472 *)
Definition rsized (t : ty) (old : val t) (s : st) : out (val t * st) :=
  match dec_auto_take t PBer with
  | Some f => f old s
  | None => dec_with_size (dec Fixed t) (dec CodecModel.Tail t) PBer old s
  end.
(** IntUint32 and Intvar, marshal/reader.go:66-89 *)
Definition r_u32 (s : st) : out (Z * st) := do! (v, s) <- call (RFixed U32) s; Ok (num v, s).
(** marshal/reader.go:66-69 *)
Definition r_intvar (s : st) : out (Z * st) := do! (v, s) <- call RVar s; Ok (to_int (num v), s).
(** oneFieldTuple, sbox/reader.go:15-27 *)
Definition one_field (sz : Z) (s : st) : out (bool * st) :=
  do! (l, s) <- r_u32 s;
  if 1 <=? l then
    do! (n, s) <- r_intvar s;
    if n =? sz then Ok (true, s) else Ok (false, fail s (ECodec 10))
  else Ok (false, fail s (ECodec 11)).
(** for i < l { Elem.WithSize(r, v.Index(i)) }; v.Index panics past the end; sbox/reader.go:87-108 *)
Fixpoint rd_list (t : ty) (l : nat) (old : list (val t)) (s : st) : out (list (val t) * st) :=
  match l with
  | O => Ok (old, s)
  | S l =>
      match old with
      | [] => Panic
      | x :: old => do! (y, s) <- rsized t x s; do! (ys, s) <- rd_list t l old s; Ok (y :: ys, s)
      end
  end.
(** structRead, sbox/reader.go:251-263: the first [k] fields that are not left out *)
Fixpoint rd_flds (k : Z) (fs : flds) : vals fs -> st -> out (vals fs * st) :=
  match fs return vals fs -> st -> out (vals fs * st) with
  | FNil => fun _ s => Ok (tt, s)
  | FCons tg t fs => fun olds s =>
      let '(old, olds) := olds in
      if drop true tg t then do! (xs, s) <- rd_flds k fs olds s; Ok ((old, xs), s)
      else if 0 <? k then
        do! (x, s) <- rsized t old s;
        do! (xs, s) <- rd_flds (k - 1) fs olds s;
        Ok ((x, xs), s)
      else Ok ((old, olds), s)
  end.
(** TReader.Auto of a settable value, as set by Fill: sbox/reader.go:87-193. The marshal reader's fields carry
    no Tag (marshal/reader_reflect.go:1009), so FillStruct (lines 289-316) never sees a sbox tag and structAuto
    is the plain loop. *)
Fixpoint sb_read (t : ty) : val t -> st -> out (val t * st) :=
  let fixed (t : ty) (old : val t) (s : st) :=     (* fixedFixed *)
    do! (ok, s) <- one_field (sz0 true t) s; if ok : bool then dec Fixed t old s else Ok (old, s) in
  match t return val t -> st -> out (val t * st) with
  | TNum k => fixed (TNum k)
  | TVar _ => fun _ _ => Panic
  | TStr => fun old s =>                           (* string *)
      do! (l, s) <- r_u32 s;
      if 1 <=? l then do! (n, s) <- r_intvar s; do! (v, s) <- call (RString n) s; Ok (nums v, s)
      else Ok (old, fail s (ECodec 12))
  | TArr n t =>
      match t return list (val t) -> st -> out (list (val t) * st) with
      | TNum U8 => fixed (TArr n (TNum U8))
      | t => fun old s =>                          (* sliceFixed *)
          do! (l, s) <- r_u32 s;
          if zlen old <=? l then rd_list t (Z.to_nat l) old s else Ok (old, fail s (ECodec 13))
      end
  | TSl t =>
      match t return list (val t) -> st -> out (list (val t) * st) with
      | TNum U8 => fun old s =>                    (* bytesAuto *)
          do! (l, s) <- r_u32 s;
          if 1 <=? l then rsized (TSl (TNum U8)) old s else Ok (old, fail s (ECodec 14))
      | t => fun old s =>                          (* sliceAuto *)
          do! (l, s) <- r_u32 s;
          do! (old, s) <- make_slice t l s;
          rd_list t (Z.to_nat l) old s
      end
  | TPtr t => fun old s =>
      do! (x, s) <- sb_read t (match old with Some v => v | None => zero t end) s; Ok (Some x, s)
  | TStruct fs => fun old s => do! (l, s) <- r_u32 s; rd_flds l fs old s
  end.
(** ReadRawTuple(r, &x), sbox/reader.go:38-47, for a variable holding [old]; the types whose Fill panics are
    those of marshal.ReaderFor *)
Definition ReadRawTuple (t : ty) (old : val t) (s : st) : out (val t * st) :=
  match Sz true t with None => Panic | Some _ => sb_read t old s end.
(** ReadSizedTuple, sbox/reader.go:29-36: the error of Slice is replaced by that of the tuple *)
Definition sub (s : st) (b : list Z) : st := mkSt (mkRd b None) (s_alloc s).
(** sbox/reader.go:29-36 *)
Definition ReadSizedTuple (t : ty) (old : val t) (s : st) : out (val t * st) :=
  do! (sz, s) <- r_u32 s;
  if failed s then Ok (old, s)
  else
    do! (b, s) <- call (RSlice (sz + 4)) s;
    do! (x, r) <- ReadRawTuple t old (sub s (nums b));
    Ok (x, mkSt (mkRd (r_body (s_rd s)) (r_err (s_rd r))) (s_alloc r)).

(** ** Results *)

(** the pair of Readers; sbox/result.go:12-13 *)
Record rpair := mkR2 { r0 : rd; r1 : rd; r_al : list Z }.
(** oneTuple, sbox/result.go:182-203; true: an error is returned. Only the Body of the second Reader is set:
    its Err stays from the tuple before. The tuple's own error is logged. *)
Definition one_tuple (t : ty) (old : val t) (r : rpair) : out (val t * bool * rpair) :=
  match r_err (r0 r) with
  | Some _ => Ok (old, true, r)
  | None =>
      do! (sz, s) <- r_u32 (mkSt (r0 r) (r_al r));
      do! (b, s) <- call (RSlice (sz + 4)) s;
      if failed s then Ok (old, true, mkR2 (s_rd s) (mkRd (nums b) (r_err (r1 r))) (s_alloc s))
      else
        do! (x, q) <- sb_read t old (mkSt (mkRd (nums b) (r_err (r1 r))) (s_alloc s));
        Ok (x, false, mkR2 (s_rd s) (s_rd q) (s_alloc q))
  end.
(** the element types readSlice accepts, sbox/result.go:138-152 *)
Definition readable (t : ty) : bool :=
  match t with
  | TArr _ e | TSl e => match e with TNum _ | TStr => true | _ => false end
  | TVar _ => false
  | _ => true
  end.
(** the loop, sbox/result.go:155-161: the elements read so far, the rest of the slice *)
Fixpoint tuple_loop (t : ty) (old : list (val t)) (n : Z) (r : rpair) : out (list (val t) * Z * rpair) :=
  match old with
  | [] => Ok ([], n, r)
  | x :: old =>
      do! (y, e, r) <- one_tuple t x r;
      if e : bool then Ok (y :: old, n, r)
      else do! (ys, n, r) <- tuple_loop t old (n + 1) r; Ok (y :: ys, n, r)
  end.
(** ReadMany(b, &slice) with slice of type []t, sbox/result.go:42-61, 138-161: the slice, read, total, the
    error of the first Reader, and the lengths of the slices made *)
Record many (t : ty) := mkMany { m_slice : list (val t); m_read : Z; m_total : Z; m_err : option rerr; m_alloc : list Z }.
(** sbox/result.go:42-61 *)
Definition ReadMany (t : ty) (b : list Z) : out (many t) :=
  match Sz true t with
  | None => Panic
  | Some _ =>
      if readable t then
        do! (total, s) <- r_u32 (mkSt (mkRd b None) []);
        do! (l, s) <- make_slice t total s;
        do! (l, n, r) <- tuple_loop t l 0 (mkR2 (s_rd s) (mkRd [] None) (s_alloc s));
        Ok (mkMany t l n total (r_err (r0 r)) (r_al r))
      else Panic
  end.
(** ReadFirst(b, &x), sbox/result.go:15-40: x, read, total, err. The error of Slice is dropped: the second
    Reader then has an empty Body. *)
Definition ReadFirst (t : ty) (old : val t) (b : list Z) : out (val t * bool * Z * option rerr) :=
  do! (total, s) <- r_u32 (mkSt (mkRd b None) []);
  if 0 <? total then
    do! (sz, s) <- r_u32 s;
    match r_err (s_rd s) with
    | Some e => Ok (old, false, total, Some e)
    | None =>
        do! (b, s) <- call (RSlice (sz + 4)) s;
        do! (x, r) <- ReadRawTuple t old (sub s (nums b));
        Ok (x, true, total, r_err (s_rd r))
    end
  else Ok (old, false, total, None).

(** ** Select *)

(** the argument of CountKeys and WriteKeys: a value or an []interface{} of tuples; sbox/select.go:46, 101 *)
Inductive keys := KOne (i : itf) | KIfs (l : list targ).
(** CountKeysValues, sbox/select.go:83-99 *)
Definition count_value (t : ty) : val t -> out Z :=
  match t return val t -> out Z with
  | TNum _ | TStr | TStruct _ => fun _ => Ok 1
  | TArr _ _ | TSl _ => fun v => Ok (zlen v)
  | TVar _ | TPtr _ => fun _ => Panic
  end.
(** CountKeys, sbox/select.go:46-81, of anything but []interface{} *)
Definition count_itf (i : itf) : out Z :=
  match i with
  | INil => Panic                          (* reflect.ValueOf(nil) has Kind Invalid *)
  | IVal t v =>
      match t return val t -> out Z with
      | TSl (TNum U8) => fun _ => Ok 1
      | TPtr t => fun v => match v with None => Panic | Some v => count_value t v end
      | t => count_value t
      end v
  end.
(** the sum in the loops of sbox/select.go:46-99 *)
Fixpoint sum_out {A} (f : A -> out Z) (l : list A) : out Z :=
  match l with [] => Ok 0 | x :: l => do! a <- f x; do! b <- sum_out f l; Ok (a + b) end.
(** the keys of one element, sbox/select.go:46-99 *)
Definition count_targ (a : targ) : out Z := match a with TOne i => count_itf i | TIfs l => sum_out count_itf l end.
(** sbox/select.go:46-99 *)
Definition CountKeys (k : keys) : out Z := match k with KOne i => count_itf i | KIfs l => sum_out count_targ l end.
(** WriteKeysValues, sbox/select.go:154-184 *)
Definition write_value (addr : bool) (t : ty) : val t -> out (list Z) :=
  match t return val t -> out (list Z) with
  | TArr n e => fun v => match Sz false e with None => Panic | Some _ => enc_list (sb_write addr e) v end
  | TSl e => fun v => match Sz false e with None => Panic | Some _ => enc_list (sb_write true e) v end
  | TPtr _ | TVar _ => fun _ => Ok []
  | t => fun v => match Sz false t with None => Panic | Some _ => sb_write addr t v end
  end.
(** WriteKeys, sbox/select.go:101-152; the cases for []uint32 ... [][][]byte are those of the types below *)
Definition write_itf (i : itf) : out (list Z) :=
  match i with
  | INil => Ok []
  | IVal t v =>
      match t return val t -> out (list Z) with
      | TNum k => fun v => match k with F32 | F64 => write_value false (TNum k) v | _ => write_one (TNum k) v end
      | TStr => write_one TStr
      | TSl t =>
          match t return list (val t) -> out (list Z) with
          | TNum U8 => write_one (TSl (TNum U8))
          | TNum k =>
              match k with
              | U32 | I32 | U64 | I64 | F32 | F64 => fun v => enc_list (write_one (TNum k)) v
              | _ => write_value false (TSl (TNum k))
              end
          | TStr => fun v => enc_list (write_one TStr) v
          | TSl t =>
              match t return list (list (val t)) -> out (list Z) with
              | TNum U8 => fun v => enc_list (write_one (TSl (TNum U8))) v
              | t => write_value false (TSl (TSl t))
              end
          | t => write_value false (TSl t)
          end
      | TPtr t => fun v => match v with None => Ok [] | Some v => write_value true t v end
      | t => write_value false t
      end v
  end.
(** sbox/select.go:101-184 *)
Definition WriteKeys (k : keys) : out (list Z) := match k with KOne i => write_itf i | KIfs l => enc_list WriteTuple l end.
(** SelectReq, sbox/select.go:18-40 *)
Record select_req := mkSel { sel_space : Z; sel_index : Z; sel_offset : Z; sel_limit : Z; sel_keys : keys }.
(** sbox/select.go:26-40 *)
Definition SelectReq_IWrite (q : select_req) : out (list Z) :=
  do! cnt <- CountKeys (sel_keys q);
  do! b <- WriteKeys (sel_keys q);
  Ok (put (WFixed U32 (sel_space q)) ++ put (WFixed U32 (sel_index q)) ++ put (WFixed U32 (sel_offset q)) ++
      put (WFixed I32 (if 0 <=? sel_limit q then sel_limit q else if sel_limit q =? -2 then of_bits I32 (cnt mod 2 ^ 32) else 2 ^ 31 - 1)) ++
      put (IntUint32 cnt) ++ b).

(** ** Store, Delete, Update, RPC: sbox/modify.go, sbox/rpc.go *)
Definition b2z (b : bool) : Z := if b then 1 else 0.
(** modify.go:21-38; Mode is a uint16 *)
Record store_req := mkStore { st_space : Z; st_return : bool; st_mode : Z; st_tuple : targ }.
(** sbox/modify.go:28-37 *)
Definition StoreReq_IWrite (q : store_req) : out (list Z) :=
  do! b <- WriteTuple (st_tuple q);
  Ok (put (WFixed U32 (st_space q)) ++ put (WFixed U32 (Z.lor (b2z (st_return q)) (Z.shiftl (st_mode q) 1))) ++ b).
(** modify.go:44-59 *)
Record delete_req := mkDel { dl_space : Z; dl_return : bool; dl_key : targ }.
(** sbox/modify.go:49-57 *)
Definition DeleteReq_IWrite (q : delete_req) : out (list Z) :=
  do! b <- WriteTuple (dl_key q);
  Ok (put (WFixed U32 (dl_space q)) ++ put (WFixed U32 (b2z (dl_return q))) ++ b).
(** Op, modify.go:85-152. OpKind values *)
Definition opmap : list Z :=      (* [...]byte{OpSet: 0, ...}: as long as its largest index, '|' *)
  map (fun c => if c =? 61 then 0 else if c =? 43 then 1 else if c =? 38 then 2 else if c =? 124 then 3
                else if c =? 94 then 4 else if c =? 115 then 5 else if c =? 100 then 6 else if c =? 105 then 7 else 0)
      (map Z.of_nat (seq 0 125)).
(** Op, sbox/modify.go:109-113 *)
Record op := mkOp { op_field : Z; op_kind : Z; op_val : itf }.
(** sbox/modify.go:98-107, 115-123 *)
Definition op_code (k : Z) : out Z :=
  if k <=? 7 then Ok k else match nth_error opmap (Z.to_nat k) with Some c => Ok c | None => Panic end.
(** the value of an operation, sbox/modify.go:124-146 *)
Definition op_value (i : itf) : out (list Z) :=
  match i with
  | INil => Panic                  (* reflect.ValueOf(nil).Type() *)
  | IVal t v =>
      match t return val t -> out (list Z) with
      | TNum k => fun v =>
          match k with
          | U32 | I32 => Ok (put (WFixed I8 4) ++ put (WFixed k v))
          | U64 | I64 => Ok (put (WFixed I8 8) ++ put (WFixed k v))
          | _ => sized false (TNum k) v
          end
      | TStr => fun v => Ok (prefix PBer (zlen v) ++ put (WBytes v))
      | TSl t =>
          match t return list (val t) -> out (list Z) with
          | TNum U8 => fun v => Ok (prefix PBer (zlen v) ++ put (WBytes v))
          | t => fun v => match Sz false (TSl t) with None => Panic | Some _ => sized false (TSl t) v end
          end
      | t => fun v => match Sz false t with None => Panic | Some _ => sized false t v end
      end v
  end.
(** sbox/modify.go:115-146 *)
Definition Op_IWrite (o : op) : out (list Z) :=
  do! c <- op_code (op_kind o);
  do! b <- op_value (op_val o);
  Ok (put (WFixed U32 (op_field o)) ++ put (WFixed U8 c) ++ b).
(** UpdateReq, modify.go:65-80; w.Write([]Op) is a uint32 count and the Ops *)
Record update_req := mkUpd { up_space : Z; up_return : bool; up_key : targ; up_ops : list op }.
(** sbox/modify.go:70-79 *)
Definition UpdateReq_IWrite (q : update_req) : out (list Z) :=
  do! k <- WriteTuple (up_key q);
  do! b <- enc_list Op_IWrite (up_ops q);
  Ok (put (WFixed U32 (up_space q)) ++ put (WFixed U32 (b2z (up_return q))) ++ k ++ put (IntUint32 (zlen (up_ops q))) ++ b).
(** RPCReq, rpc.go:12-66 *)
Record rpc_req := mkRpc { rpc_name : list Z; rpc_args : list (list Z) }.
(** sbox/rpc.go:34-40 *)
Definition stringvar (s : list Z) : list Z := prefix PBer (zlen s) ++ put (WBytes s).
(** sbox/rpc.go:42-67 *)
Definition RPCReq_IWrite (q : rpc_req) : out (list Z) :=
  Ok (put (IntUint32 0) ++ stringvar (rpc_name q) ++ put (IntUint32 (zlen (rpc_args q))) ++ flat_map stringvar (rpc_args q)).
(** IMsg: select.go:42, modify.go:40, 61, 82, rpc.go:71 *)
Inductive request := RSelect (q : select_req) | RStore (q : store_req) | RDelete (q : delete_req) | RUpdate (q : update_req) | RRpc (q : rpc_req).
(** sbox/sbox.go:15-35, sbox/select.go:42-44, sbox/modify.go:39-41, 59-61, 81-83, sbox/rpc.go:69-71 *)
Definition IMsg (q : request) : Z := match q with RSelect _ => 17 | RStore _ => 13 | RDelete _ => 21 | RUpdate _ => 19 | RRpc _ => 22 end.
(** sbox/select.go:26-40, sbox/modify.go:28-79, sbox/rpc.go:42-67 *)
Definition IWrite (q : request) : out (list Z) :=
  match q with
  | RSelect q => SelectReq_IWrite q
  | RStore q => StoreReq_IWrite q
  | RDelete q => DeleteReq_IWrite q
  | RUpdate q => UpdateReq_IWrite q
  | RRpc q => RPCReq_IWrite q
  end.
