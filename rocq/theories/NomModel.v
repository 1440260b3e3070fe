(** Model of the writing side of the reflective codec for named types: types that contain themselves, interfaces, and types with
    their own IWrite (marshal/writer_reflect.go). CodecModel.v has the types that are none of these, with "ber" fields; here the
    types of a program are a table, a type is its number in it, and a value carries the types of what its interfaces hold.

    Simplifications: no "ber" fields and no unexported fields (the code ignores the latter); a nil slice is an empty slice. The
    fast paths of the type switch in Writer.Write (writer_reflect.go:14-80) for numbers, strings and slices of numbers write the
    same bytes as the codec of the type (CodecModel.Write has them one by one). The methods of a user's type are arbitrary
    functions of the value. *)
From Coq Require Import ZArith List Bool Arith.
Import ListNotations.
From Verif Require Import Base PrimModel.
From Verif Require CodecModel RegModel.
From Verif Require Import FillModel.
Open Scope Z_scope.

Notation out := CodecModel.out. Notation Ok := CodecModel.Ok. Notation Panic := CodecModel.Panic. Notation bind := CodecModel.bind.
Notation "'do!' x <- e ; f" := (CodecModel.bind e (fun x => f)) (at level 60, x pattern, e at level 59, right associativity).
Notation tag := CodecModel.tag. Notation pk := CodecModel.pk. Notation TgSkip := CodecModel.TgSkip. Notation TgAuto := CodecModel.TgAuto.
Notation TgSize := CodecModel.TgSize. Notation TgCnt := CodecModel.TgCnt. Notation TgNo := CodecModel.TgNo. Notation P32 := CodecModel.P32.

(** ** Values and types; a value as reflect.Value shows it to marshal/writer_reflect.go *)
Inductive dv :=
| VNum (x : Z)
| VStr (l : list Z)
| VSeq (l : list dv)            (* arrays, slices, the fields of a struct *)
| VNil                          (* a nil pointer or interface *)
| VRef (v : dv)                 (* a pointer *)
| VDyn (t : nat) (v : dv).      (* an interface that holds a value of type t *)
(** marshal/writer_reflect.go:374-530 *)
Inductive ukind := KPtr | KIface | KOther.   (* Kind() of a user's type: Ptr, Interface, or another *)
(** A type with IWrite. [u_ptr]: the methods are those of the pointer, so that reflect needs the value's address. The type *T of a
    type T with methods has them too and is such a type itself, of kind Ptr; so is an interface type with IWrite. marshal/marshal.go:12-34 *)
Record user := mkUser { u_kind : ukind; u_ptr : bool; u_write : dv -> out (list Z); u_size : option (dv -> Z); u_count : option (dv -> Z) }.
Inductive shape :=
| SNum (k : kind)
| SStr
| SArr (n : nat) (t : nat)
| SSl (t : nat)
| SPtr (t : nat)
| SStruct (fs : list (tag * nat))
| SIface                        (* an interface without IWrite *)
| SUser (u : user)
| SOther.                       (* a map, a channel, a function...: Fill leaves Write nil, writer_reflect.go:450-530 *)

Section Types.
Variable T : nat -> shape.

(** ** Fill, writer_reflect.go:374-530, 532-536, 593-605, 689-855 *)
Record info := mkI { i_sz : Z; i_get : bool; i_cnt : Z; i_keep : list bool }.
(** the calls of _writer and the panic for a field after size(no), :701-703 *)
Fixpoint field_instrs (nosize : bool) (fs : list (tag * nat)) : list RegModel.instr :=
  match fs with
  | [] => []
  | (tg, t) :: fs =>
      if nosize then [RegModel.Fail]
      else match tg with
      | CodecModel.TgSkip => field_instrs false fs
      | CodecModel.TgNo => RegModel.Need t :: field_instrs true fs
      | _ => RegModel.Need t :: field_instrs false fs
      end
  end.
(** the types Fill asks for, marshal/writer_reflect.go:374-885 *)
Definition prog (t : nat) : list RegModel.instr :=
  match T t with
  | SArr _ e | SSl e | SPtr e => [RegModel.Need e]
  | SStruct fs => field_instrs false fs
  | _ => []
  end.
(** before the end of Fill; FillStruct sets Cnt first, :690 *)
Definition pend (t : nat) : info := mkI (-1) false match T t with SStruct _ => 1 | _ => -1 end [].
(** the loop of FillStruct: the size so far and which fields are kept, :695-854 *)
Fixpoint scan (fs : list (tag * nat)) (is : list info) (size : Z) : Z * list bool :=
  match fs with
  | [] => (size, [])
  | (CodecModel.TgSkip, _) :: fs => let '(z, ks) := scan fs is size in (z, false :: ks)
  | (tg, _) :: fs =>
      match is with
      | [] => (size, [])
      | i :: is =>
          let size := if 0 <=? size then match CodecModel.prefix_sz tg (i_sz i) (i_cnt i) with None => -1 | Some p => size + p end
                      else match CodecModel.prefix_sz tg (i_sz i) (i_cnt i) with None => -1 | Some p => size end in
          if CodecModel.dropped tg (i_sz i) then let '(z, ks) := scan fs is size in (z, false :: ks)
          else let '(z, ks) := scan fs is (if 0 <=? size then size + i_sz i else size) in (z, true :: ks)
      end
  end.
(** what Fill stores in the codec once it has those of the parts, marshal/writer_reflect.go:374-885 *)
Definition fin (t : nat) (is : list info) : info :=
  match T t with
  | SNum k => mkI (Z.of_nat (width k)) false 1 []
  | SStr => mkI (-1) true (-1) []
  | SArr n _ => mkI match is with e :: _ => if 0 <=? i_sz e then Z.of_nat n * i_sz e else -1 | [] => -1 end false (Z.of_nat n) []
  | SSl _ => mkI (-1) match is with e :: _ => 0 <=? i_sz e | [] => false end (-1) []
  | SStruct fs => let '(z, ks) := scan fs is 0 in mkI z false 1 ks
  | SUser u => mkI (-1) match u_size u with Some _ => true | None => false end (-1) []
  | SPtr _ | SIface | SOther => mkI (-1) false (-1) []
  end.
(** the codecs of the types after an execution of the registry; a type not asked for has none; marshal/writer_reflect.go:225-254 *)
Definition table (x : ist info) (t : nat) : info := match RegModel.ws (fst x) t with Some o => snd x o | None => pend t end.

(** ** Writing *)
Variable g : nat -> info.
(** marshal/writer_reflect.go:374-530 *)
Definition no_addr (u : user) (addr : bool) : bool := u_ptr u && negb addr.   (* v.Addr() panics *)
(** the elements v.Index(i), marshal/writer_reflect.go:532-652 *)
Definition seq (v : dv) : list dv := match v with VSeq l => l | _ => [] end.
(** v.Uint() or v.Int(), marshal/writer.go:177-219 *)
Definition vnum (v : dv) : Z := match v with VNum x => x | _ => 0 end.
(** the end of Size, writer_reflect.go:294-300 *)
Definition size1 (addr : bool) (t : nat) (v : dv) : out Z :=
  if 0 <=? i_sz (g t) then Ok (i_sz (g t))
  else if i_get (g t) then
    match T t with
    | SStr => match v with VStr l => Ok (zlen l) | _ => Panic end
    | SSl e => Ok (zlen (seq v) * i_sz (g e))
    | SUser u => match u_size u with Some f => if no_addr u addr then Panic else Ok (f v) | None => Ok (-1) end
    | _ => Ok (-1)
    end
  else Ok (-1).
(** Size, writer_reflect.go:278-301. The codec of a pointer with methods has no Elem: nil dereference. *)
Fixpoint size_of (addr : bool) (t : nat) (v : dv) {struct v} : out Z :=
  match T t with
  | SPtr e => match v with VNil => Ok 0 | VRef w => size1 true e w | _ => Panic end
  | SIface => match v with VNil => Ok 0 | VDyn u w => size_of false u w | _ => Panic end
  | SUser u =>
      match u_kind u, v with
      | KPtr, VNil | KIface, VNil => Ok 0
      | KIface, VDyn t' w => size_of false t' w
      | KOther, _ => size1 addr t v
      | _, _ => Panic
      end
  | _ => size1 addr t v
  end.
(** the end of Count, writer_reflect.go:342-350 *)
Definition count1 (addr : bool) (t : nat) (v : dv) : out Z :=
  if 0 <=? i_cnt (g t) then Ok (i_cnt (g t))
  else match T t with
  | SStr => match v with VStr l => Ok (zlen l) | _ => Panic end
  | SSl _ => Ok (zlen (seq v))
  | SUser u => match u_count u with Some f => if no_addr u addr then Panic else if 0 <=? f v then Ok (f v) else Panic | None => Panic end
  | _ => Panic
  end.
(** Count, writer_reflect.go:326-351 *)
Fixpoint count_of (addr : bool) (t : nat) (v : dv) {struct v} : out Z :=
  match T t with
  | SPtr e => match v with VNil => Ok 0 | VRef w => count1 true e w | _ => Panic end
  | SIface => match v with VNil => Ok 0 | VDyn u w => count_of false u w | _ => Panic end
  | SUser u =>
      match u_kind u, v with
      | KPtr, VNil | KIface, VNil => Ok 0
      | KIface, VDyn t' w => count_of false t' w
      | KOther, _ => count1 addr t v
      | _, _ => Panic
      end
  | _ => count1 addr t v
  end.
(** TWriter.WithSize, marshal/writer_reflect.go:303-324 *)
Definition with_size (p : pk) (sz : out Z) (body : out (list Z)) : out (list Z) := do! z <- sz; CodecModel.with_size p z body.
(** TWriter.WithCount, marshal/writer_reflect.go:353-360 *)
Definition with_count (p : pk) (cnt : out Z) (body : out (list Z)) : out (list Z) := do! c <- cnt; CodecModel.with_count p (Some c) body.
(** Kind() == reflect.Interface; marshal/writer_reflect.go:374-652 *)
Definition is_iface (t : nat) : bool := match T t with SIface => true | SUser u => match u_kind u with KIface => true | _ => false end | _ => false end.
Section Each.
Variable f : dv -> out (list Z).
(** the loop over the elements, marshal/writer_reflect.go:532-652 *)
Fixpoint each (l : list dv) : out (list Z) := match l with [] => Ok [] | v :: l => do! a <- f v; do! b <- each l; Ok (a ++ b) end.
End Each.
(** t.Write ([auto] = false) and t.WriteAuto ([auto] = true) of the codec of type t. [addr]: is the value addressable? *)
Fixpoint wr (auto addr : bool) (t : nat) (v : dv) {struct v} : out (list Z) :=
  (* the elements of arrays and slices: :537-590, 599-651; elements that are interfaces are written with Write, nil ones not at all *)
  let elems addr e v :=
    match T e with
    | SNum k => Ok (CodecModel.slVal addr k (map vnum (seq v)))
    | _ =>
        match v with
        | VSeq l =>
            if is_iface e then each (fun x => match x with VNil => Ok [] | VDyn u w => wr false false u w | _ => Panic end) l
            else each (fun x => wr true addr e x) l
        | _ => Panic
        end
    end in
  match T t with
  | SNum k => match v with VNum x => Ok (CodecModel.put (WFixed k x)) | _ => Panic end
  | SStr => match v with
            | VStr l => if auto then with_count P32 (count_of addr t v) (Ok (CodecModel.put (WBytes l))) else Ok (CodecModel.put (WBytes l))
            | _ => Panic
            end
  | SArr n e => elems addr e v                                                                   (* Cnt is set, CntGet is not: no count *)
  | SSl e => if auto then with_count P32 (count_of addr t v) (elems true e v) else elems true e v
  | SPtr e =>                                                                                     (* FillPtr, :654-663 *)
      match v with
      | VNil => if auto then Panic else Ok []
      | VRef w => wr auto true e w
      | _ => Panic
      end
  | SStruct fs =>                                                                                 (* writeStruct, :674-687 *)
      match v with
      | VSeq vs =>
          (fix flds (ks : list bool) (fs : list (tag * nat)) (vs : list dv) {struct vs} : out (list Z) :=
             match ks, fs, vs with
             | [], [], [] => Ok []
             | k :: ks, (tg, e) :: fs, v :: vs =>
                 do! a <- (if k then match tg with
                                     | CodecModel.TgSkip => Ok []
                                     | CodecModel.TgSize p => with_size p (size_of addr e v) (wr false addr e v)
                                     | CodecModel.TgCnt p => with_count p (count_of addr e v) (wr false addr e v)
                                     | CodecModel.TgNo => wr false addr e v
                                     | _ => wr true addr e v
                                     end
                           else Ok []);
                 do! b <- flds ks fs vs; Ok (a ++ b)
             | _, _, _ => Panic
             end) (i_keep (g t)) fs vs
      | _ => Panic
      end
  | SIface =>                                                                                     (* :507-528 *)
      match v with VNil => Ok [] | VDyn u w => wr auto false u w | _ => Panic end
  | SUser u =>                                                                                    (* :377-449, fillauto :362-372 *)
      let body := if no_addr u addr then Panic else u_write u v in
      match u_count u with Some _ => if auto then with_count P32 (count_of addr t v) body else body | None => body end
  | SOther => Panic                                                                               (* a nil function *)
  end.
(** Writer.Write of an interface value, writer_reflect.go:10-93: nil; types with IWrite (but not by their pointer); []interface{};
    []IWriter; other types by their codec *)
Fixpoint Write (i : dv) : out (list Z) :=
  match i with
  | VNil => Ok []
  | VDyn t v =>
      match T t with
      | SUser u => if u_ptr u then wr true false t v else u_write u v
      | SSl e =>
          match T e, v with
          | SIface, VSeq l => with_count P32 (Ok (zlen l)) (each (fun x => Write x) l)
          | SUser u, VSeq l => match u_kind u with KIface => with_count P32 (Ok (zlen l)) (each (u_write u) l) | _ => wr true false t v end
          | _, _ => wr true false t v
          end
      | _ => wr true false t v
      end
  | _ => Panic
  end.
(** WriteTail, :101-168: the same without the leading count *)
Definition WriteTail (i : dv) : out (list Z) :=
  match i with
  | VNil => Ok []
  | VDyn t v =>
      match T t with
      | SUser u => if u_ptr u then wr false false t v else u_write u v
      | SSl e =>
          match T e, v with
          | SIface, VSeq l => each Write l
          | SUser u, VSeq l => match u_kind u with KIface => each (u_write u) l | _ => wr false false t v end
          | _, _ => wr false false t v
          end
      | _ => wr false false t v
      end
  | _ => Panic
  end.
End Types.
