(** Model of the reading side of the reflective codec for named types: types that contain themselves, interfaces, and types with
    their own IRead (marshal/reader_reflect.go). CodecModel.v has the types that are none of these; NomModel.v is the writing side.

    Simplifications: as in NomModel.v (no "ber" fields, no unexported fields, a nil slice is an empty slice); no named byte types
    (:870 compares the element type with uint8); the elements between the length and the capacity of a slice are not kept, so that
    Tail (:931-952) finds zero values there. The methods of a user's type are arbitrary functions from the variable and the Reader to
    the variable and the Reader. The depth of recursion is bounded by [fuel]: [Hang] when it does not suffice. *)
From Coq Require Import ZArith List Bool Arith.
Import ListNotations.
From Verif Require Import Base PrimModel.
From Verif Require CodecModel RegModel.
From Verif Require Import FillModel NomModel.
Open Scope Z_scope.

Notation Hang := CodecModel.Hang. Notation st := CodecModel.st. Notation mkSt := CodecModel.mkSt. Notation call := CodecModel.call.
Notation s_rd := CodecModel.s_rd. Notation s_alloc := CodecModel.s_alloc. Notation failed := CodecModel.failed. Notation fail := CodecModel.fail.
Notation num := CodecModel.num. Notation nums := CodecModel.nums. Notation take := CodecModel.take. Notation bulk := CodecModel.bulk.
Notation rprefix := CodecModel.rprefix. Notation dec_list := CodecModel.dec_list. Notation tail_loop := CodecModel.tail_loop.
Notation mode := CodecModel.mode. Notation Fixed := CodecModel.Fixed. Notation Auto := CodecModel.Auto. Notation Tail := CodecModel.Tail.
Notation setsz := CodecModel.setsz. Notation SzYes := CodecModel.SzYes. Notation SzNo := CodecModel.SzNo. Notation SzErr := CodecModel.SzErr.

(** A type with IRead. [ru_ptr]: IRead is a method of the pointer. [ru_long]: with a self argument (IReader) or without
    (IShortReader). ISetSize gives (true, _), (false, nil) or (false, err); ISetCount gives nil (true) or an error. [ru_sc_ptr]:
    ISetCount is a method of the pointer. marshal/marshal.go:36-66 *)
Record ruser := mkRU { ru_kind : ukind; ru_ptr : bool; ru_long : bool; ru_read : dv -> st -> out (dv * st);
  ru_tail : option (dv -> st -> out (dv * st)); ru_ssize : option (dv -> Z -> out (dv * setsz));
  ru_scount : option (dv -> Z -> out (dv * bool)); ru_sc_ptr : bool }.
Inductive rshape :=
| RNum (k : kind)
| RStr
| RArr (n : nat) (t : nat)
| RSl (t : nat)
| RPtr (t : nat)
| RStruct (fs : list (tag * nat))
| RIface
| RUser (u : ruser)
| ROther.                       (* a map, a channel, a function...: Fill leaves Fixed nil, reader_reflect.go:664-769 *)

Section Types.
Variable R : nat -> rshape.

(** ** Fill, reader_reflect.go:559-770, 802-806, 849-866, 994-1178. [i_get]: SzSet is set. *)
Definition rprog (t : nat) : list RegModel.instr :=
  match R t with
  | RArr _ e | RSl e | RPtr e => [RegModel.Need e]
  | RStruct fs => field_instrs false fs        (* :1006-1008, 1020-1022, 1061-1063, 1108-1110 *)
  | _ => []
  end.
(** before the end of Fill, :375; FillStruct sets Cnt first, :997 *)
Definition rpend (t : nat) : info := mkI (-1) false match R t with RStruct _ => 1 | _ => -1 end [].
(** the loop of FillStruct, :1001-1174, reckons as that of the writer does *)
Definition rfin (t : nat) (is : list info) : info :=
  match R t with
  | RNum k => mkI (Z.of_nat (width k)) false 1 []
  | RArr n _ => mkI match is with e :: _ => if 0 <=? i_sz e then Z.of_nat n * i_sz e else -1 | [] => -1 end false (Z.of_nat n) []
  | RSl _ => match is with e :: _ => mkI (if i_sz e =? 0 then 0 else -1) (0 <? i_sz e) (-1) [] | [] => mkI (-1) false (-1) [] end
  | RStruct fs => let '(z, ks) := scan fs is 0 in mkI z false 1 ks
  | RUser u => mkI (-1) match ru_ssize u with Some _ => true | None => false end (-1) []
  | RStr | RPtr _ | RIface | ROther => mkI (-1) false (-1) []
  end.

(** ** Reading *)
Variable Z0 : nat -> dv.        (* reflect.Zero of a type *)
Variable g : nat -> info.
(** marshal/reader_reflect.go:559-770 *)
Definition rno_addr (u : ruser) (can : bool) : bool := ru_ptr u && negb can.      (* v.Addr() panics *)
(** CntSet of a type with IRead: with a self argument and pointer methods it is looked for among the methods of the value, :605 *)
Definition cntset (u : ruser) : option (dv -> Z -> out (dv * bool)) :=
  if ru_ptr u && ru_long u && ru_sc_ptr u then None else ru_scount u.
(** CntSet of a slice, :850-855. MakeSlice panics for a negative length, Set if the variable cannot be set. *)
Definition mk_slice (can : bool) (e : nat) (v : dv) (cnt : Z) (s : st) : out (dv * st) :=
  if zlen (seq v) =? cnt then Ok (v, s)
  else if (cnt <? 0) || negb can then Panic
  else Ok (VSeq (repeat (Z0 e) (Z.to_nat cnt)), mkSt (s_rd s) (s_alloc s ++ [cnt])).
(** the end of SetSize, :433-442 *)
Definition set_size1 (can : bool) (t : nat) (v : dv) (sz : Z) (s : st) : out (dv * setsz * st) :=
  if 0 <=? i_sz (g t) then Ok (v, if sz =? i_sz (g t) then SzYes else SzErr, s)
  else if i_get (g t) then
    match R t with
    | RSl e => do! (x, s) <- mk_slice can e v (Z.quot sz (i_sz (g e))) s; Ok (x, SzYes, s)                    (* :856-863 *)
    | RUser u => match ru_ssize u with Some f => if rno_addr u can then Panic else do! (x, y) <- f v sz; Ok (x, y, s) | None => Ok (v, SzNo, s) end
    | _ => Ok (v, SzNo, s)
    end
  else Ok (v, SzNo, s).
(** SetSize, :398-443. [can]: the variable can be set. The codec of a pointer with methods has no Elem: nil dereference. *)
Fixpoint set_size (fuel : nat) (can : bool) (t : nat) (v : dv) (sz : Z) (s : st) : out (dv * setsz * st) :=
  match fuel with
  | O => Hang
  | S fuel =>
      let ptr e :=
        if sz =? 0 then
          match v with
          | VNil => Ok (VNil, SzYes, s)
          | VRef w => if can then Ok (VNil, SzYes, s)
                      else match e with Some e => do! (x, y, s) <- set_size fuel true e w sz s; Ok (VRef x, y, s) | None => Panic end
          | _ => Panic
          end
        else
          match e, v with
          | Some e, VNil => if can then do! (x, y, s) <- set_size fuel true e (Z0 e) sz s; Ok (VRef x, y, s) else Panic
          | Some e, VRef w => do! (x, y, s) <- set_size fuel true e w sz s; Ok (VRef x, y, s)
          | _, _ => Panic
          end in
      let iface := fun _ : unit =>
        match v with
        | VNil => if sz =? 0 then set_size1 can t v sz s else Panic                                            (* v.Elem().Type() *)
        | VDyn u w => if (sz =? 0) && can then Panic                                                           (* v.Set(reflect.ValueOf(nil)) *)
                      else do! (x, y, s) <- set_size fuel false u w sz s; Ok (VDyn u x, y, s)
        | _ => Panic
        end in
      match R t with
      | RPtr e => ptr (Some e)
      | RIface => iface tt
      | RUser u => match ru_kind u with KPtr => ptr None | KIface => iface tt | KOther => set_size1 can t v sz s end
      | _ => set_size1 can t v sz s
      end
  end.
(** the end of SetCount, :510-519; false: the counts do not match *)
Definition set_count1 (can : bool) (t : nat) (v : dv) (cnt : Z) (s : st) : out (dv * bool * st) :=
  if 0 <=? i_cnt (g t) then Ok (v, cnt =? i_cnt (g t), s)
  else match R t with
  | RSl e => do! (x, s) <- mk_slice can e v cnt s; Ok (x, true, s)
  | RUser u => match cntset u with Some f => if rno_addr u can then Panic else do! (x, y) <- f v cnt; Ok (x, y, s) | None => Panic end
  | _ => Panic
  end.
(** SetCount, :474-520 *)
Fixpoint set_count (fuel : nat) (can : bool) (t : nat) (v : dv) (cnt : Z) (s : st) : out (dv * bool * st) :=
  match fuel with
  | O => Hang
  | S fuel =>
      let ptr e :=
        if cnt =? 0 then
          match v with
          | VNil => Ok (VNil, true, s)
          | VRef w => if can then Ok (VNil, true, s)
                      else match e with Some e => do! (x, y, s) <- set_count fuel true e w cnt s; Ok (VRef x, y, s) | None => Panic end
          | _ => Panic
          end
        else
          match e, v with
          | Some e, VNil => if can then do! (x, y, s) <- set_count fuel true e (Z0 e) cnt s; Ok (VRef x, y, s) else Panic
          | Some e, VRef w => do! (x, y, s) <- set_count fuel true e w cnt s; Ok (VRef x, y, s)
          | _, _ => Panic
          end in
      let iface := fun _ : unit =>
        match v with
        | VNil => if cnt =? 0 then set_count1 can t v cnt s else Panic
        | VDyn u w => if (cnt =? 0) && can then Panic
                      else do! (x, y, s) <- set_count fuel false u w cnt s; Ok (VDyn u x, y, s)
        | _ => Panic
        end in
      match R t with
      | RPtr e => ptr (Some e)
      | RIface => iface tt
      | RUser u => match ru_kind u with KPtr => ptr None | KIface => iface tt | KOther => set_count1 can t v cnt s end
      | _ => set_count1 can t v cnt s
      end
  end.
(** AutoCount and AutoSize of strings, :665-669, and of []uint8, :869-881 *)
Definition into (can : bool) (t : nat) : option (dv -> Z -> st -> out (dv * st)) :=
  match R t with
  | RStr => Some (fun _ n s => do! (b, s) <- take n s; if can then Ok (VStr b, s) else Panic)
  | RSl e =>
      match R e with
      | RNum U8 => Some (fun v n s =>
          if can then do! (b, s) <- take n s; Ok (VSeq (map VNum b), s)
          else if n =? zlen (seq v) then do! (b, s) <- bulk U8 (map vnum (seq v)) s; Ok (VSeq (map VNum b), s)
          else Ok (v, fail s (ECodec 5)))
      | _ => None
      end
  | _ => None
  end.
(** WithCount, :522-539, given t.Fixed *)
Definition rwith_count (fuel : nat) (fixed : dv -> st -> out (dv * st)) (p : pk) (can : bool) (t : nat) (v : dv) (s : st) : out (dv * st) :=
  if failed s then Ok (v, s)
  else
    do! (n, s) <- rprefix p s;
    match into can t with
    | Some f => f v n s
    | None => do! (x, ok, s) <- set_count fuel can t v n s; if (ok : bool) then fixed x s else Ok (x, fail s (ECodec 1))
    end.
(** WithSize, :445-472, given t.Fixed and t.Tail *)
Definition rwith_size (fuel : nat) (fixed tail : dv -> st -> out (dv * st)) (p : pk) (can : bool) (t : nat) (v : dv) (s : st) : out (dv * st) :=
  if failed s then Ok (v, s)
  else
    do! (n, s) <- rprefix p s;
    match into can t with
    | Some f => f v n s
    | None =>
        do! (x, y, s) <- set_size fuel can t v n s;
        match y with
        | CodecModel.SzYes => fixed x s
        | CodecModel.SzErr => Ok (x, fail s (ECodec 2))
        | CodecModel.SzNo =>
            do! (b, s) <- take n s;
            do! (x, rr) <- tail x (mkSt (mkRd b (r_err (s_rd s))) (s_alloc s));
            let s := mkSt (s_rd s) (s_alloc rr) in
            match r_err (s_rd rr) with
            | Some e => Ok (x, fail s e)
            | None => if zlen (r_body (s_rd rr)) =? 0 then Ok (x, s) else Ok (x, fail s (ECodec 3))
            end
        end
    end.
(** t.Fixed, t.Auto and t.Tail of the codec of type t, for a variable that holds v. Fields and the elements of arrays can be set if
    the variable can; elements of slices and what pointers point to can; what interfaces hold cannot. *)
Fixpoint rd (fuel : nat) (m : mode) (can : bool) (t : nat) (v : dv) (s : st) : out (dv * st) :=
  match fuel with
  | O => Hang
  | S fuel =>
      (* :807-846, 867-929; sliceHeaderFromElem takes the address of the first element, reader.go:211-235, reader_any.go:234-336 *)
      let elems (can : bool) e :=
        match R e with
        | RNum k => match seq v with
                    | [] => Ok (v, s)
                    | l => if can then do! (b, s) <- bulk k (map vnum l) s; Ok (VSeq (map VNum b), s) else Panic
                    end
        | _ => do! (l, s) <- dec_list (rd fuel Auto can e) (seq v) s; Ok (VSeq l, s)
        end in
      match R t with
      | RNum k => do! (x, s) <- call (RFixed k) s; if can then Ok (VNum (num x), s) else Panic
      | RStr =>
          match m with
          | CodecModel.Tail => do! (x, s) <- call RTail s; if can then Ok (VStr (nums x), s) else Panic
          | _ => rwith_count fuel (fun _ _ => Panic) P32 can t v s
          end
      | RArr n e => elems can e                                                                     (* Tail and Auto are Fixed, :547-556 *)
      | RSl e =>
          match m with
          | CodecModel.Fixed => elems true e
          | CodecModel.Auto => rwith_count fuel (rd fuel Fixed can t) P32 can t v s
          | CodecModel.Tail =>
              match R e with
              | RNum k =>
                  if failed s then Ok (v, s)
                  else if can then match k with
                                   | U8 => do! (x, s) <- call RTail s; Ok (VSeq (map VNum (nums x)), s)    (* reader.go:237-249 *)
                                   | _ => Panic                                                    (* MakeSlice of the element type *)
                                   end
                  else elems true e
              | _ =>
                  if can then do! (l, s) <- tail_loop (Z0 e) (rd fuel Auto true e) (length (r_body (s_rd s)) + length (seq v) + 1) (seq v) s; Ok (VSeq l, s)
                  else elems true e
              end
          end
      | RPtr e =>                                                                                   (* FillPtr, :772-800 *)
          match m with
          | CodecModel.Tail =>
              if negb (failed s) then Ok (v, s)
              else if 0 <? zlen (r_body (s_rd s)) then
                match v with
                | VNil => if can then do! (x, s) <- rd fuel Tail true e (Z0 e) s; Ok (VRef x, s) else Ok (v, s)
                | VRef w => do! (x, s) <- rd fuel Tail true e w s; Ok (VRef x, s)
                | _ => Panic
                end
              else match v with
                   | VRef w => if can then Ok (VNil, s) else do! (x, s) <- rd fuel Tail true e w s; Ok (VRef x, s)
                   | _ => Ok (v, s)
                   end
          | _ => match v with VRef w => do! (x, s) <- rd fuel Fixed true e w s; Ok (VRef x, s) | VNil => Ok (v, s) | _ => Panic end
          end
      | RStruct fs =>                                                                               (* structFixed, structTail, :964-992 *)
          match v with
          | VSeq vs =>
              do! (xs, s) <-
                (fix flds (ks : list bool) (fs : list (tag * nat)) (vs : list dv) (s : st) {struct vs} : out (list dv * st) :=
                   match ks, fs, vs with
                   | [], [], [] => Ok ([], s)
                   | k :: ks, (tg, e) :: fs, v :: vs =>
                       do! (x, s) <- (if k then match tg with
                                                | CodecModel.TgSkip => Ok (v, s)
                                                | CodecModel.TgSize p => rwith_size fuel (rd fuel Fixed can e) (rd fuel Tail can e) p can e v s
                                                | CodecModel.TgCnt p => rwith_count fuel (rd fuel Fixed can e) p can e v s
                                                | CodecModel.TgNo => rd fuel match m with CodecModel.Tail => Tail | _ => Fixed end can e v s
                                                | _ => rd fuel Auto can e v s
                                                end
                                      else Ok (v, s));
                       do! (xs, s) <- flds ks fs vs s; Ok (x :: xs, s)
                   | _, _, _ => Panic
                   end) (i_keep (g t)) fs vs s;
              Ok (VSeq xs, s)
          | _ => Panic
          end
      | RIface =>                                                                                   (* :747-767; fillautotail replaces Auto by Fixed, :554-556 *)
          match v with
          | VNil => Ok (v, s)
          | VDyn u w => do! (x, s) <- rd fuel match m with CodecModel.Tail => Tail | _ => Fixed end false u w s; Ok (VDyn u x, s)
          | _ => Panic
          end
      | RUser u =>                                                                                  (* :562-661 *)
          let fixed v s := if rno_addr u can then Panic else ru_read u v s in
          match m with
          | CodecModel.Fixed => fixed v s
          | CodecModel.Auto => match cntset u with Some _ => rwith_count fuel fixed P32 can t v s | None => fixed v s end
          | CodecModel.Tail => match ru_tail u with Some f => if rno_addr u can then Panic else f v s | None => fixed v s end
          end
      | ROther => Panic                                                                             (* a nil function *)
      end
  end.
(** Reader.Read of a pointer to a variable of type t that holds [v], :11-176: fast paths; the IRead of a pointer to a type with
    IRead; *[]interface{} and pointers to slices of an interface type with IRead, whose lengths must match; the codec.
    [Read i]: Read of an interface value, which is a pointer or not; it gives the interface value after. *)
Fixpoint Read (fuel : nat) (i : dv) (s : st) {struct fuel} : out (dv * st) :=
  match fuel with
  | O => Hang
  | S fuel =>
      if failed s then Ok (i, s)
      else
      match i with
      | VDyn t v =>
          match R t, v with
          | RUser u, _ => if rno_addr u false then do! (x, s) <- rd fuel Fixed false t v s; Ok (VDyn t x, s)
                          else do! (x, s) <- ru_read u v s; Ok (VDyn t x, s)
          | RPtr e, VRef w =>
              match R e with
              | RUser u => match ru_kind u with
                           | KOther => do! (x, s) <- ru_read u w s; Ok (VDyn t (VRef x), s)
                           | _ => do! (x, s) <- rd fuel Auto true e w s; Ok (VDyn t (VRef x), s)
                           end
              | RNum k => do! (x, s) <- call (RFixed k) s; Ok (VDyn t (VRef (VNum (num x))), s)
              | RStr => do! (c, s) <- call (RFixed U32) s;
                        if failed s then Ok (i, s) else do! (b, s) <- take (num c) s; Ok (VDyn t (VRef (VStr b)), s)
              | RSl e' =>
                  match R e' with
                  | RNum k =>
                      do! (c, s) <- call (RFixed U32) s;
                      if failed s then Ok (i, s)
                      else match k with
                      | U8 => do! (b, s) <- take (num c) s; Ok (VDyn t (VRef (VSeq (map VNum b))), s)
                      | _ => do! (b, s) <- call (RBulk k (repeat 0 (Z.to_nat (num c)))) (mkSt (s_rd s) (s_alloc s ++ [num c]));
                             Ok (VDyn t (VRef (VSeq (map VNum (nums b)))), s)
                      end
                  | RIface =>
                      do! (c, s) <- call (RFixed U32) s;
                      if failed s then Ok (i, s)
                      else if num c =? zlen (seq w) then do! (l, s) <- dec_list (Read fuel) (seq w) s; Ok (VDyn t (VRef (VSeq l)), s)
                      else Ok (i, fail s (ECodec 6))
                  | RUser u =>
                      match ru_kind u with
                      | KIface =>
                          do! (c, s) <- call (RFixed U32) s;
                          if failed s then Ok (i, s)
                          else if num c =? zlen (seq w) then do! (l, s) <- dec_list (ru_read u) (seq w) s; Ok (VDyn t (VRef (VSeq l)), s)
                          else Ok (i, fail s (ECodec 6))
                      | _ => do! (x, s) <- rd fuel Auto true e w s; Ok (VDyn t (VRef x), s)
                      end
                  | _ => do! (x, s) <- rd fuel Auto true e w s; Ok (VDyn t (VRef x), s)
                  end
              | _ => do! (x, s) <- rd fuel Auto true e w s; Ok (VDyn t (VRef x), s)
              end
          | RPtr _, _ => Panic                                                                      (* nil: val.Type() of the zero Value *)
          | RSl e, _ =>
              match R e with
              | RIface => do! (l, s) <- dec_list (Read fuel) (seq v) s; Ok (VDyn t (VSeq l), s)
              | RUser u => match ru_kind u with
                           | KIface => do! (l, s) <- dec_list (ru_read u) (seq v) s; Ok (VDyn t (VSeq l), s)
                           | _ => do! (x, s) <- rd fuel Fixed false t v s; Ok (VDyn t x, s)
                           end
              | _ => do! (x, s) <- rd fuel Fixed false t v s; Ok (VDyn t x, s)
              end
          | _, _ => do! (x, s) <- rd fuel Fixed false t v s; Ok (VDyn t x, s)
          end
      | _ => Panic
      end
  end.
(** Reader.ReadTail of an interface value, :280-349: fast paths for slices of numbers; IRead, not the codec's Tail, of a pointer to a
    type with IRead; slices of interfaces; the codec. What is left over is an error, which replaces an earlier one. *)
Definition ReadTail (fuel : nat) (i : dv) (s : st) : out (dv * st) :=
  if failed s then Ok (i, s)
  else
    do! (x, s) <-
      match i with
      | VDyn t v =>
          match R t, v with
          | RUser u, _ => if rno_addr u false then do! (x, s) <- rd fuel Fixed false t v s; Ok (VDyn t x, s)
                          else do! (x, s) <- ru_read u v s; Ok (VDyn t x, s)
          | RPtr e, VRef w =>
              do! (x, s) <-
                match R e with
                | RUser u => match ru_kind u with KOther => ru_read u w s | _ => rd fuel Tail true e w s end
                | RSl e' =>
                    match R e' with
                    | RNum U8 => do! (x, s) <- call RTail s; Ok (VSeq (map VNum (nums x)), s)
                    | RNum k =>
                        let n := Z.quot (zlen (r_body (s_rd s))) (Z.of_nat (width k)) in
                        do! (b, s) <- call (RBulk k (repeat 0 (Z.to_nat n))) (mkSt (s_rd s) (s_alloc s ++ [n])); Ok (VSeq (map VNum (nums b)), s)
                    | _ => rd fuel Tail true e w s
                    end
                | _ => rd fuel Tail true e w s
                end;
              Ok (VDyn t (VRef x), s)
          | RPtr _, _ => Panic                                                                      (* nil: val.Type() of the zero Value *)
          | RSl e, _ =>
              match R e with
              | RIface => do! (l, s) <- dec_list (Read fuel) (seq v) s; Ok (VDyn t (VSeq l), s)
              | RUser u => match ru_kind u with
                           | KIface => do! (l, s) <- dec_list (ru_read u) (seq v) s; Ok (VDyn t (VSeq l), s)
                           | _ => do! (x, s) <- rd fuel Fixed false t v s; Ok (VDyn t x, s)
                           end
              | _ => do! (x, s) <- rd fuel Fixed false t v s; Ok (VDyn t x, s)
              end
          | _, _ => do! (x, s) <- rd fuel Fixed false t v s; Ok (VDyn t x, s)
          end
      | _ => Panic
      end;
    if zlen (r_body (s_rd s)) =? 0 then Ok (x, s) else Ok (x, fail s (ECodec 4)).
End Types.
