(** Model of the reflective layer of package marshal: TWriter / TReader, the struct tags, and the
    top-level Write, WriteTail, Read, ReadTail, ReadWithSize (marshal/writer_reflect.go, reader_reflect.go).

    A Go type is a [ty], a Go value of that type a [val ty]; so values are well-typed by construction.
    Simplifications: interfaces, user-defined IWriter/IReader implementations, recursive and named types
    are not modelled; nil and empty slices are the same value; a slice has capacity = length; unexported
    fields do not exist (the code ignores them); a struct tag is "skip" or at most one size()/cnt()
    directive, with or without "ber". A field marked "ber" is represented by the element type [TVar]: uint
    kinds as [TVar k], slices, arrays and pointers of them as [TSl (TVar k)], [TArr n (TVar k)], [TPtr (TVar k)]. *)
From Coq Require Import ZArith List Bool Arith.
Import ListNotations.
From Verif Require Import Base PrimModel.
Open Scope Z_scope.

(** ** Types, tags and values; marshal/writer_reflect.go:689-885, marshal/reader_reflect.go:994-1189 *)
Inductive pk := PBer | P8 | P16 | P32 | P64.  (* the argument of size() or cnt() *)
(** the iproto tag of a field: marshal/writer_reflect.go:689-885, marshal/reader_reflect.go:994-1189 *)
Inductive tag := TgSkip | TgAuto | TgSize (p : pk) | TgCnt (p : pk) | TgNo.
(** reflect.Kind as Fill distinguishes it: marshal/writer_reflect.go:374-530, marshal/reader_reflect.go:559-770 *)
Inductive ty :=
| TNum (k : kind)
| TVar (k : kind)                (* an unsigned integer of a "ber" field *)
| TStr
| TArr (n : nat) (t : ty)
| TSl (t : ty)
| TPtr (t : ty)
| TStruct (fs : flds)
(** the fields of a struct with their tags, marshal/writer_reflect.go:665-672 *)
with flds := FNil | FCons (tg : tag) (t : ty) (fs : flds).
(** the values of a type, as reflect.Value shows them to marshal/writer_reflect.go and marshal/reader_reflect.go *)
Fixpoint val (t : ty) : Type :=
  match t with
  | TNum _ | TVar _ => Z
  | TStr => list Z
  | TArr _ t | TSl t => list (val t)
  | TPtr t => option (val t)
  | TStruct fs => vals fs
  end
(** the values of the fields of a struct, as v.Field(i) in marshal/writer_reflect.go:674-687 *)
with vals (fs : flds) : Type :=
  match fs with FNil => unit | FCons _ t fs => (val t * vals fs)%type end.
(** reflect.Zero; what marshal/reader_reflect.go:772-953 puts into new elements *)
Fixpoint zero (t : ty) : val t :=
  match t return val t with
  | TNum _ | TVar _ => 0
  | TStr => []
  | TArr n t => repeat (zero t) n
  | TSl _ => []
  | TPtr _ => None
  | TStruct fs => zeros fs
  end
(** reflect.Zero of a struct, marshal/reader_reflect.go:772-953 *)
with zeros (fs : flds) : vals fs :=
  match fs return vals fs with FNil => tt | FCons _ t fs => (zero t, zeros fs) end.

(** results: a value, a panic, or no termination; a computation of marshal/writer_reflect.go or marshal/reader_reflect.go: a result or a panic *)
Inductive out (A : Type) := Ok (a : A) | Panic | Hang.
Arguments Ok {A} a. Arguments Panic {A}. Arguments Hang {A}.
(** bookkeeping: sequencing; a panic ends the computation *)
Definition bind {A B} (o : out A) (f : A -> out B) : out B :=
  match o with Ok a => f a | Panic => Panic | Hang => Hang end.
Notation "'do!' x <- e ; f" := (bind e (fun x => f)) (at level 60, x pattern, e at level 59, right associativity).

(** ** Fill: static size and count of a type, writer_reflect.go:374-889, reader_reflect.go:559-1192 *)

(** Varsize, marshal.go:155-160 *)
Definition Varsize := varu64size.
(** TWriter.Cnt and TReader.Cnt, marshal/writer_reflect.go:256-269, 374-530, marshal/reader_reflect.go:382-396 *)
Definition Cnt (t : ty) : Z :=
  match t with TNum _ | TVar _ => 1 | TArr n _ => Z.of_nat n | TStruct _ => 1 | _ => -1 end.
(** fields with "ber": [size = -1] for the struct, writer_reflect.go:711-713 *)
Definition is_ber (t : ty) : bool :=
  match t with TVar _ | TArr _ (TVar _) | TSl (TVar _) | TPtr (TVar _) => true | _ => false end.
(** Sz of the field's type before "ber" is looked at; marshal/writer_reflect.go:689-885, marshal/reader_reflect.go:994-1189 *)
Definition raw_sz (t : ty) (sz : Z) : Z :=
  match t with TVar k => Z.of_nat (width k) | TArr n (TVar k) => Z.of_nat n * Z.of_nat (width k) | _ => sz end.
(** the bytes added to a struct's size for the prefix, writer_reflect.go:720-795: cnt(i8) adds 2; [None]:
    size becomes -1 *)
Definition prefix_sz (tg : tag) (sz cnt : Z) : option Z :=
  match tg with
  | TgSkip | TgAuto => Some 0
  | TgSize PBer => if sz <? 0 then None else Some (Varsize sz)
  | TgSize P8 => Some 1
  | TgSize P16 => Some 2
  | TgSize P32 => Some 4
  | TgSize P64 => Some 8
  | TgCnt PBer => if cnt <? 0 then None else Some (Varsize cnt)
  | TgCnt P8 => Some 2
  | TgCnt P16 => Some 2
  | TgCnt P32 => Some 4
  | TgCnt P64 => Some 8
  | TgNo => None
  end.
Definition dropped (tg : tag) (sz : Z) : bool :=  (* writer_reflect.go:807-809 *)
  match tg with TgSkip => true | TgAuto | TgNo => sz =? 0 | _ => false end.

(** Sz of a type; [None]: Fill panics (a field after a size(no)/cnt(no) field). [rd] selects the reader,
    whose FillSlice sets Sz = 0 for slices of zero-size elements (reader_reflect.go:864-866). *)
Fixpoint Sz (rd : bool) (t : ty) : option Z :=
  match t with
  | TNum k => Some (Z.of_nat (width k))
  | TVar _ => Some (-1)
  | TStr => Some (-1)
  | TArr n t => match Sz rd t with None => None | Some s => Some (if 0 <=? s then Z.of_nat n * s else -1) end
  | TSl t => match Sz rd t with None => None | Some s => Some (if rd && (s =? 0) then 0 else -1) end
  | TPtr t => match Sz rd t with None => None | Some _ => Some (-1) end
  | TStruct fs => Szs rd fs 0 false
  end
(** the sum over the fields in FillStruct, marshal/writer_reflect.go:689-885, marshal/reader_reflect.go:994-1189 *)
with Szs (rd : bool) (fs : flds) (size : Z) (nosize : bool) : option Z :=
  match fs with
  | FNil => Some size
  | FCons tg t fs =>
      if nosize then None
      else match tg with
      | TgSkip => Szs rd fs size nosize
      | _ =>
          match Sz rd t with
          | None => None
          | Some s =>
              let nosize := match tg with TgNo => true | _ => false end in
              let sz := raw_sz t s in
              let size := if is_ber t then -1 else size in
              let size := if 0 <=? size then match prefix_sz tg sz (Cnt t) with None => -1 | Some p => size + p end
                          else match prefix_sz tg sz (Cnt t) with None => -1 | Some p => size end in
              if dropped tg sz then Szs rd fs size nosize
              else Szs rd fs (if 0 <=? size then size + sz else size) nosize
          end
      end
  end.
(** Sz of a type whose Fill does not panic, marshal/writer_reflect.go:256-269 *)
Definition sz0 (rd : bool) (t : ty) : Z := match Sz rd t with Some s => s | None => -1 end.
(** is a field kept in Flds?; marshal/writer_reflect.go:689-885, marshal/reader_reflect.go:994-1189 *)
Definition drop (rd : bool) (tg : tag) (t : ty) : bool := dropped tg (raw_sz t (sz0 rd t)).

(** ** Writing *)

(** The bytes a primitive call appends to a buffer whose unused capacity is zero (never Reset), which is
    the case for the pooled Writers of marshal.Write. For every call but Float64sl it is the same whatever
    the buffer contains: PrimWriter.call_stores_exact. marshal/writer.go:44-175, marshal/marshal.go:94-106 *)
Fixpoint put_stores (a : list Z) (st : list (nat * list Z)) : list Z :=
  match st with [] => a | (p, b) :: st => put_stores (overwrite a p b) st end.
(** the bytes a primitive call appends, marshal/writer.go:64-175, marshal/writer_any.go:9-119 *)
Definition put (c : wcall) : list Z := let '(n, st) := call_stores c in put_stores (repeat 0 n) st.

(** the function given by size(p) / cnt(p), writer_reflect.go:719-795 *)
Definition prefix (p : pk) (n : Z) : list Z :=
  match p with
  | PBer => put (WVar (n mod 2 ^ 64))
  | P8 => put (IntUint8 n)
  | P16 => put (IntUint16 n)
  | P32 => put (IntUint32 n)
  | P64 => put (IntUint64 n)
  end.
(** XslVal, writer.go:225-261, writer_any.go:121-271: bulk write if the elements are addressable *)
Definition slVal (addr : bool) (k : kind) (xs : list Z) : list Z :=
  match xs with
  | [] => []
  | _ =>
      if addr then match k with
        | F64 => put (WFloat64sl xs)
        | U8 | I8 => put (WBytes (map (to_bits k) xs))
        | _ => put (WSlice k xs)
        end
      else flat_map (fun x => put (WFixed k x)) xs
  end.

(** TWriter.Size, writer_reflect.go:278-301 *)
Definition sz_get (t : ty) : val t -> Z :=
  match t return val t -> Z with
  | TVar k => fun v => varu64size v
  | TArr _ (TVar k) => fun v => fold_right (fun x s => varu64size x + s) 0 v
  | TStr => fun v => zlen v
  | TSl t =>
      match t return list (val t) -> Z with
      | TVar k => fun v => fold_right (fun x s => varu64size x + s) 0 v
      | t => fun v => if 0 <=? sz0 false t then zlen v * sz0 false t else -1
      end
  | _ => fun _ => -1
  end.
(** TWriter.Size of a value that is no pointer, marshal/writer_reflect.go:278-301 *)
Definition size1 (t : ty) (v : val t) : Z := if 0 <=? sz0 false t then sz0 false t else sz_get t v.
(** TWriter.Size, marshal/writer_reflect.go:278-301 *)
Definition size_of (t : ty) : val t -> Z :=
  match t return val t -> Z with
  | TPtr t => fun v => match v with None => 0 | Some v => size1 t v end
  | t => size1 t
  end.
(** TWriter.Count, writer_reflect.go:326-351; None: "could not determine count" panic *)
Definition cnt1 (t : ty) : val t -> option Z :=
  match t return val t -> option Z with
  | TNum _ | TVar _ | TStruct _ => fun _ => Some 1
  | TArr n _ => fun _ => Some (Z.of_nat n)
  | TStr => fun v => Some (zlen v)
  | TSl _ => fun v => Some (zlen v)
  | TPtr _ => fun _ => None
  end.
(** TWriter.Count, marshal/writer_reflect.go:326-351 *)
Definition cnt_of (t : ty) : val t -> option Z :=
  match t return val t -> option Z with
  | TPtr t => fun v => match v with None => Some 0 | Some v => cnt1 t v end
  | t => cnt1 t
  end.

(** the loop over the elements in FillArray and FillSlice, marshal/writer_reflect.go:532-652 *)
Fixpoint enc_list {A} (f : A -> out (list Z)) (l : list A) : out (list Z) :=
  match l with [] => Ok [] | x :: l => do! a <- f x; do! b <- enc_list f l; Ok (a ++ b) end.

(** WithSize, writer_reflect.go:303-324, given the result of t.Write *)
Definition with_size (p : pk) (sz : Z) (body : out (list Z)) : out (list Z) :=
  if 0 <=? sz then do! b <- body; Ok (prefix p sz ++ b)
  else do! b <- body; Ok (prefix p (zlen b) ++ b).
(** WithCount, writer_reflect.go:353-360 *)
Definition with_count (p : pk) (cnt : option Z) (body : out (list Z)) : out (list Z) :=
  match cnt with None => Panic | Some c => do! b <- body; Ok (prefix p c ++ b) end.

(** t.Write ([auto] = false) and t.WriteAuto ([auto] = true). [addr]: is the value addressable? *)
Fixpoint enc (auto addr : bool) (t : ty) : val t -> out (list Z) :=
  match t return val t -> out (list Z) with
  | TNum k => fun v => Ok (put (WFixed k v))
  | TVar _ => fun v => Ok (put (WVar v))
  | TStr => fun v =>   (* StringVal; auto: WithCount *)
      if auto then with_count P32 (Some (zlen v)) (Ok (put (WBytes v))) else Ok (put (WBytes v))
  | TArr n t =>        (* FillArray, writer_reflect.go:532-591; BerSlWriter for TVar *)
      match t return (val t -> out (list Z)) -> list (val t) -> out (list Z) with
      | TNum k => fun _ v => Ok (slVal addr k v)
      | TVar _ => fun f v => if auto then with_count P32 (Some (zlen v)) (enc_list f v) else enc_list f v
      | _ => fun f v => enc_list f v
      end (enc true addr t)
  | TSl t =>           (* FillSlice, writer_reflect.go:593-652 *)
      match t return (val t -> out (list Z)) -> list (val t) -> out (list Z) with
      | TNum k => fun _ v => if auto then with_count P32 (Some (zlen v)) (Ok (slVal true k v)) else Ok (slVal true k v)
      | _ => fun f v => if auto then with_count P32 (Some (zlen v)) (enc_list f v) else enc_list f v
      end (enc true true t)
  | TPtr t => fun v =>  (* FillPtr, writer_reflect.go:654-663; WriteAuto of a nil pointer panics in reflect *)
      match v with
      | None => if auto then Panic else Ok []
      | Some v => enc auto true t v
      end
  | TStruct fs => enc_flds addr fs
  end
with enc_flds (addr : bool) (fs : flds) : vals fs -> out (list Z) :=  (* writeStruct, writer_reflect.go:674-687 *)
  match fs return vals fs -> out (list Z) with
  | FNil => fun _ => Ok []
  | FCons tg t fs => fun vs =>
      let '(v, vs) := vs in
      do! a <- (if drop false tg t then Ok []
                else match tg with
                | TgSize p => with_size p (size_of t v) (enc false addr t v)
                | TgCnt p => with_count p (cnt_of t v) (enc false addr t v)
                | TgNo => enc false addr t v
                | _ => enc true addr t v
                end);
      do! b <- enc_flds addr fs vs;
      Ok (a ++ b)
  end.

(** Writer.Write, writer_reflect.go:10-93, on a non-pointer value; the fast paths of the type switch come
    first. *)
Definition Write (t : ty) : val t -> out (list Z) :=
  match t return val t -> out (list Z) with
  | TNum k => fun v => Ok (put (WFixed k v))
  | TStr => fun v => Ok (put (IntUint32 (zlen v)) ++ put (WBytes v))
  | TSl (TNum k) => fun v => Ok (put (IntUint32 (zlen v)) ++
      match k with F64 => put (WFloat64sl v) | U8 => put (WBytes v) | _ => put (WSlice k v) end)
  | t => fun v => match Sz false t with None => Panic | Some _ => enc true false t v end
  end.
(** Writer.WriteTail, writer_reflect.go:101-168 *)
Definition WriteTail (t : ty) : val t -> out (list Z) :=
  match t return val t -> out (list Z) with
  | TNum k => fun v => Ok (put (WFixed k v))
  | TSl (TNum k) => fun v => Ok (match k with F64 => put (WFloat64sl v) | U8 => put (WBytes v) | _ => put (WSlice k v) end)
  | t => fun v => match Sz false t with None => Panic | Some _ => enc false false t v end
  end.

(** ** Reading *)

(** the Reader and the lengths of the slices made while decoding; marshal/reader.go:13-16 *)
Record st := mkSt { s_rd : rd; s_alloc : list Z }.
(** a primitive call of the Reader, marshal/reader.go:18-165, marshal/reader_any.go:10-232 *)
Definition call (c : rcall) (s : st) : out (rval * st) :=
  match r_call (s_rd s) c with None => Panic | Some (v, r) => Ok (v, mkSt r (s_alloc s)) end.
(** the number a primitive call returned, marshal/reader.go:18-89 *)
Definition num (v : rval) : Z := match v with VNum x => x | _ => 0 end.
(** the elements a primitive call read, marshal/reader.go:91-165 *)
Definition nums (v : rval) : list Z := match v with VNums l | VBytes l => l | _ => [] end.
(** r.Err = ..., marshal/reader.go:13-16 *)
Definition fail (s : st) (e : rerr) : st := mkSt (mkRd (r_body (s_rd s)) (Some e)) (s_alloc s).
(** r.Err != nil, marshal/reader.go:13-16 *)
Definition failed (s : st) : bool := match r_err (s_rd s) with Some _ => true | None => false end.
(** the functions given by size(p) / cnt(p) on the reading side, reader_reflect.go:1024-1100 *)
Definition rprefix (p : pk) (s : st) : out (Z * st) :=
  match p with
  | PBer => do! (v, s) <- call RVar s; Ok (to_int (num v), s)
  | P8 => do! (v, s) <- call (RFixed U8) s; Ok (num v, s)
  | P16 => do! (v, s) <- call (RFixed U16) s; Ok (num v, s)
  | P32 => do! (v, s) <- call (RFixed U32) s; Ok (num v, s)
  | P64 => do! (v, s) <- call (RFixed U64) s; Ok (to_int (num v), s)
  end.
(** reflect.MakeSlice: panics for a negative length; marshal/reader_reflect.go:474-520, 849-953 *)
Definition make_slice (t : ty) (cnt : Z) (s : st) : out (list (val t) * st) :=
  if cnt <? 0 then Panic else Ok (repeat (zero t) (Z.to_nat cnt), mkSt (s_rd s) (s_alloc s ++ [cnt])).
(** CntSet of a slice, reader_reflect.go:850-855 *)
Definition cnt_set (t : ty) (old : list (val t)) (cnt : Z) (s : st) : out (list (val t) * st) :=
  if zlen old =? cnt then Ok (old, s) else make_slice t cnt s.

(** the results of SetSize, marshal/reader_reflect.go:398-443 *)
Inductive setsz := SzYes | SzNo | SzErr.
(** TReader.SetSize, reader_reflect.go:398-443 (values are settable). The reader of a "ber" pointer has no
    Type: nil dereference. *)
Fixpoint set_size (t : ty) : val t -> Z -> st -> out (val t * setsz * st) :=
  match t return val t -> Z -> st -> out (val t * setsz * st) with
  | TPtr t => fun old sz s =>
      match t with
      | TVar _ => Panic
      | _ =>
        if sz =? 0 then Ok (None, SzYes, s)
        else
          do! (x, y, s) <- set_size t (match old with Some v => v | None => zero t end) sz s;
          Ok (Some x, y, s)
      end
  | TSl t => fun old sz s =>
      if 0 <=? sz0 true (TSl t) then Ok (old, if sz =? sz0 true (TSl t) then SzYes else SzErr, s)
      else if 0 <? sz0 true t then
        let cnt := Z.quot sz (sz0 true t) in
        do! (l, s) <- cnt_set t old cnt s; Ok (l, SzYes, s)
      else Ok (old, SzNo, s)
  | t => fun old sz s =>
      if 0 <=? sz0 true t then Ok (old, if sz =? sz0 true t then SzYes else SzErr, s) else Ok (old, SzNo, s)
  end.
(** TReader.SetCount, reader_reflect.go:474-520; false: count mismatch error *)
Fixpoint set_count (t : ty) : val t -> Z -> st -> out (val t * bool * st) :=
  match t return val t -> Z -> st -> out (val t * bool * st) with
  | TPtr t => fun old cnt s =>
      match t with
      | TVar _ => Panic
      | _ =>
        if cnt =? 0 then Ok (None, true, s)
        else
          do! (x, y, s) <- set_count t (match old with Some v => v | None => zero t end) cnt s;
          Ok (Some x, y, s)
      end
  | TSl t => fun old cnt s => do! (l, s) <- cnt_set t old cnt s; Ok (l, true, s)
  | TStr => fun old cnt s => Panic   (* Don't know what to do with count *)
  | t => fun old cnt s => Ok (old, cnt =? Cnt t, s)
  end.

(** Fixed, Auto and Tail of a TReader, marshal/reader_reflect.go:382-396 *)
Inductive mode := Fixed | Auto | Tail.
(** the loop over the elements in FillArray and FillSlice, marshal/reader_reflect.go:802-953 *)
Fixpoint dec_list {A} (f : A -> st -> out (A * st)) (l : list A) (s : st) : out (list A * st) :=
  match l with
  | [] => Ok ([], s)
  | x :: l => do! (y, s) <- f x s; do! (l, s) <- dec_list f l s; Ok (y :: l, s)
  end.
(** the loop of the generic Tail, reader_reflect.go:931-952. Once the old elements are used up, an
    iteration that consumes nothing repeats forever; [fuel] = len(Body) + len(old) + 1 tells exactly. *)
Fixpoint tail_loop {A} (z : A) (f : A -> st -> out (A * st)) (fuel : nat) (old : list A) (s : st) : out (list A * st) :=
  if (0 <? zlen (r_body (s_rd s))) && negb (failed s) then
    match fuel with
    | O => Hang
    | S fuel =>
        do! (y, s) <- f (hd z old) s;
        do! (l, s) <- tail_loop z f fuel (tl old) s;
        Ok (y :: l, s)
    end
  else Ok ([], s).
(** the Val readers of fixed-width slices, reader.go:211-235, reader_any.go:234-336: nothing for an empty slice *)
Definition bulk (k : kind) (old : list Z) (s : st) : out (list Z * st) :=
  match old with
  | [] => Ok ([], s)
  | _ => do! (v, s) <- call (RBulk k old) s; Ok (nums v, s)
  end.
(** AutoCount / AutoSize of strings and []byte, reader_reflect.go:664-671, 869-881 *)
Definition take (sz : Z) (s : st) : out (list Z * st) := do! (v, s) <- call (RSlice sz) s; Ok (nums v, s).

(** WithCount, reader_reflect.go:522-539, for types without AutoCount, given t.Fixed *)
Definition dec_with_count {t : ty} (fixed : val t -> st -> out (val t * st)) (p : pk) (old : val t) (s : st) : out (val t * st) :=
  if failed s then Ok (old, s)
  else
    do! (cnt, s) <- rprefix p s;
    do! (x, ok, s) <- set_count t old cnt s;
    if (ok : bool) then fixed x s else Ok (x, fail s (ECodec 1)).
(** WithSize, reader_reflect.go:445-472, for types without AutoSize, given t.Fixed and t.Tail *)
Definition dec_with_size {t : ty} (fixed tail : val t -> st -> out (val t * st)) (p : pk) (old : val t) (s : st) : out (val t * st) :=
  if failed s then Ok (old, s)
  else
    do! (sz, s) <- rprefix p s;
    do! (x, y, s) <- set_size t old sz s;
    match y with
    | SzYes => fixed x s
    | SzErr => Ok (x, fail s (ECodec 2))
    | SzNo =>
        do! (b, s) <- take sz s;
        do! (x, rr) <- tail x (mkSt (mkRd b (r_err (s_rd s))) (s_alloc s));
        let s := mkSt (s_rd s) (s_alloc rr) in
        match r_err (s_rd rr) with
        | Some e => Ok (x, fail s e)
        | None => if zlen (r_body (s_rd rr)) =? 0 then Ok (x, s) else Ok (x, fail s (ECodec 3))
        end
    end.
(** with AutoSize / AutoCount; marshal/reader_reflect.go:445-472, 522-539 *)
Definition dec_take (p : pk) (old : list Z) (s : st) : out (list Z * st) :=
  if failed s then Ok (old, s) else do! (n, s) <- rprefix p s; take n s.

(** the types whose body is taken as one slice of bytes, marshal/reader_reflect.go:559-770 *)
Definition is_bytes (t : ty) : bool := match t with TStr | TSl (TNum U8) => true | _ => false end.
(** dec_take for the types that have AutoSize and AutoCount; marshal/reader_reflect.go:445-472, 522-539 *)
Definition dec_auto_take (t : ty) (p : pk) : option (val t -> st -> out (val t * st)) :=
  match t return option (val t -> st -> out (val t * st)) with
  | TStr => Some (dec_take p)
  | TSl t => match t return option (list (val t) -> st -> out (list (val t) * st)) with TNum U8 => Some (dec_take p) | _ => None end
  | _ => None
  end.

(** t.Fixed, t.Auto, t.Tail *)
Fixpoint dec (m : mode) (t : ty) : val t -> st -> out (val t * st) :=
  match t return val t -> st -> out (val t * st) with
  | TNum k => fun _ s => do! (v, s) <- call (RFixed k) s; Ok (num v, s)
  | TVar k => fun _ s => do! (v, s) <- call RVar s; Ok (num v mod 256 ^ Z.of_nat (width k), s)
  | TStr => fun old s =>
      match m with
      | Tail => do! (v, s) <- call RTail s; Ok (nums v, s)
      | _ => dec_take P32 old s
      end
  | TArr n t =>      (* FillArray, reader_reflect.go:802-847 *)
      match t return (val t -> st -> out (val t * st)) -> list (val t) -> st -> out (list (val t) * st) with
      | TNum k => fun _ old s => bulk k old s
      | _ => fun f old s => dec_list f old s
      end (dec Auto t)
  | TSl t =>         (* FillSlice, reader_reflect.go:849-953 *)
      let fixed :=
        match t return (val t -> st -> out (val t * st)) -> list (val t) -> st -> out (list (val t) * st) with
        | TNum k => fun _ old s => bulk k old s
        | _ => fun f old s => dec_list f old s
        end (dec Auto t) in
      match m with
      | Fixed => fixed
      | Auto =>
          match t return (list (val t) -> st -> out (list (val t) * st)) -> list (val t) -> st -> out (list (val t) * st) with
          | TNum U8 => fun _ => dec_take P32
          | t => fun fixed => @dec_with_count (TSl t) fixed P32
          end fixed
      | Tail =>
          match t return (val t -> st -> out (val t * st)) -> list (val t) -> st -> out (list (val t) * st) with
          | TNum U8 => fun _ old s =>   (* Uint8slValTail, reader.go:237-249 *)
              if failed s then Ok (old, s) else do! (v, s) <- call RTail s; Ok (nums v, s)
          | TNum _ => fun _ old s =>    (* XslValTail: reflect.MakeSlice of the element type *)
              if failed s then Ok (old, s) else Panic
          | t => fun f old s => tail_loop (zero t) f (length (r_body (s_rd s)) + length old + 1) old s
          end (dec Auto t)
      end
  | TPtr t => fun old s =>   (* FillPtr, reader_reflect.go:772-800 *)
      match m with
      | Tail =>
          if negb (failed s) then Ok (old, s)
          else if 0 <? zlen (r_body (s_rd s)) then
            do! (x, s) <- dec Tail t (match old with Some v => v | None => zero t end) s; Ok (Some x, s)
          else Ok (None, s)
      | _ =>
          match old with
          | None => Ok (None, s)
          | Some v => do! (x, s) <- dec Fixed t v s; Ok (Some x, s)
          end
      end
  | TStruct fs => dec_flds (match m with Tail => Tail | _ => Fixed end) fs
  end
with dec_flds (m : mode) (fs : flds) : vals fs -> st -> out (vals fs * st) :=  (* structFixed, structTail: reader_reflect.go:964-992 *)
  match fs return vals fs -> st -> out (vals fs * st) with
  | FNil => fun _ s => Ok (tt, s)
  | FCons tg t fs => fun olds s =>
      let '(old, olds) := olds in
      do! (x, s) <-
        (if drop true tg t then Ok (old, s)
         else match tg with
         | TgSize p =>
             match dec_auto_take t p with
             | Some f => f old s
             | None => dec_with_size (dec Fixed t) (dec Tail t) p old s
             end
         | TgCnt p =>
             match dec_auto_take t p with
             | Some f => f old s
             | None => dec_with_count (dec Fixed t) p old s
             end
         | TgNo => dec m t old s
         | _ => dec Auto t old s
         end);
      do! (xs, s) <- dec_flds m fs olds s;
      Ok ((x, xs), s)
  end.

(** Reader.Read of a pointer to a variable holding [old], reader_reflect.go:11-176; fast paths first *)
Definition Read (t : ty) : val t -> st -> out (val t * st) :=
  match t return val t -> st -> out (val t * st) with
  | TNum k => fun old s => if failed s then Ok (old, s) else do! (v, s) <- call (RFixed k) s; Ok (num v, s)
  | TStr => fun old s =>
      if failed s then Ok (old, s)
      else do! (c, s) <- call (RFixed U32) s; if failed s then Ok (old, s) else take (num c) s
  | TSl t =>
      match t return list (val t) -> st -> out (list (val t) * st) with
      | TNum U8 => fun old s =>
          if failed s then Ok (old, s)
          else do! (c, s) <- call (RFixed U32) s; if failed s then Ok (old, s) else take (num c) s
      | TNum k => fun old s =>
          if failed s then Ok (old, s)
          else do! (c, s) <- call (RFixed U32) s;
               if failed s then Ok (old, s)
               else do! (l, s) <- make_slice (TNum k) (num c) s; do! (v, s) <- call (RBulk k l) s; Ok (nums v, s)
      | t => fun old s => if failed s then Ok (old, s) else match Sz true (TSl t) with None => Panic | Some _ => dec Auto (TSl t) old s end
      end
  | t => fun old s => if failed s then Ok (old, s) else match Sz true t with None => Panic | Some _ => dec Auto t old s end
  end.
(** Reader.ReadTail, reader_reflect.go:280-349 *)
Definition ReadTail (t : ty) (old : val t) (s : st) : out (val t * st) :=
  if failed s then Ok (old, s)
  else
    let body :=
      match t return val t -> st -> out (val t * st) with
      | TSl t =>
          match t return list (val t) -> st -> out (list (val t) * st) with
          | TNum U8 => fun old s => do! (v, s) <- call RTail s; Ok (nums v, s)
          | TNum k => fun old s =>
              do! (l, s) <- make_slice (TNum k) (zlen (r_body (s_rd s)) / Z.of_nat (width k)) s;
              do! (v, s) <- call (RBulk k l) s; Ok (nums v, s)
          | t => fun old s => match Sz true (TSl t) with None => Panic | Some _ => dec Tail (TSl t) old s end
          end
      | t => fun old s => match Sz true t with None => Panic | Some _ => dec Tail t old s end
      end in
    do! (x, s) <- body old s;
    if zlen (r_body (s_rd s)) =? 0 then Ok (x, s) else Ok (x, fail s (ECodec 4)).
(** Reader.ReadWithSize of a fixed-width number, reader_reflect.go:198-242: a different size is silently ignored *)
Definition ReadWithSize_num (k : kind) (rs : pk) (old : Z) (s : st) : out (Z * st) :=
  if failed s then Ok (old, s)
  else
    do! (sz, s) <- rprefix rs s;
    if sz =? Z.of_nat (width k) then do! (v, s) <- call (RFixed k) s; Ok (num v, s) else Ok (old, s).
