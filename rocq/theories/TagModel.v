(** Model of what FillStruct makes of the text of an iproto tag: for the writer (marshal/writer_reflect.go:704-801) and, separately,
    for the reader (marshal/reader_reflect.go:1009-1106), and of what the field is then framed with.

    Simplifications. The text is the value of the key "iproto" that reflect.StructTag.Get returns; finding it among the other keys
    of the tag is the reflect package's. Whether "ber" suits the type of the field (writer_reflect.go:815-860) is not part of the
    text; what the directives add to the size of the struct is CodecModel.v. *)
From Coq Require Import List Bool Arith Ascii String.
Import ListNotations.
From Verif Require Import CodecModel.
Open Scope string_scope.

(** bookkeeping: ',' *)
Definition comma : ascii := ","%char.
(** strings.Split(ipro, ","), writer_reflect.go:708, reader_reflect.go:1013: never empty *)
Fixpoint split (s : string) : list string :=
  match s with
  | EmptyString => [EmptyString]
  | String c s =>
      if Ascii.eqb c comma then EmptyString :: split s
      else match split s with [] => [String c EmptyString] | w :: ws => String c w :: ws end
  end.
(** strings.HasPrefix, writer_reflect.go:714, 750 *)
Fixpoint has_prefix (p s : string) : bool :=
  match p, s with
  | EmptyString, _ => true
  | String a p, String b s => Ascii.eqb a b && has_prefix p s
  | String _ _, EmptyString => false
  end.
(** m[n : len(m)-1], writer_reflect.go:719, 755: a run-time panic when the bounds are out of order *)
Definition cut (n : nat) (m : string) : option string :=
  if Nat.leb n (length m - 1) then Some (substring n (length m - 1 - n) m) else None.
(** the switch of writer_reflect.go:720-749, 756-785 and reader_reflect.go:1024-1053, 1060-1089: a prefix, or "no", or a panic *)
Inductive arg := APk (p : pk) | ANo | ABad.
Definition argument (t : string) : arg :=
  if t =? "ber" then APk PBer else if t =? "i8" then APk P8 else if t =? "i16" then APk P16
  else if t =? "i32" then APk P32 else if t =? "i64" then APk P64 else if t =? "no" then ANo else ABad.

(** FieldWriter and the variable ber, writer_reflect.go:665-672, 705-706; FieldReader likewise, reader_reflect.go:956-963, 1009-1011 *)
Record fld := mkFld { ber : bool; sz : option pk; cnt : option pk; nosize : bool }.
(** bookkeeping: the fields with one replaced *)
Definition f_ber (f : fld) := mkFld true (sz f) (cnt f) (nosize f).
Definition f_sz (f : fld) p := mkFld (ber f) (Some p) (cnt f) (nosize f).
Definition f_cnt (f : fld) p := mkFld (ber f) (sz f) (Some p) (nosize f).
Definition f_no (f : fld) := mkFld (ber f) (sz f) (cnt f) true.
(** bookkeeping: the field is left out, the type is refused by a panic, or the field is used. [no]: a size(no) or cnt(no) before the
    skip had been seen, so that the variable nosize of FillStruct is set (writer_reflect.go:744, 780) *)
Inductive parsed := Skipped (no : bool) | Refused | Used (f : fld).

(** the loop over the words, writer_reflect.go:708-787 *)
Fixpoint words_w (ws : list string) (f : fld) : parsed :=
  match ws with
  | [] => Used f
  | m :: ws =>
      if m =? "skip" then Skipped (nosize f)
      else if m =? "ber" then words_w ws (f_ber f)
      else if has_prefix "size(" m then
        match cut 5 m with
        | None => Refused
        | Some t => match argument t with APk p => words_w ws (f_sz f p) | ANo => words_w ws (f_no f) | ABad => Refused end
        end
      else if has_prefix "cnt(" m then
        match cut 4 m with
        | None => Refused
        | Some t => match argument t with APk p => words_w ws (f_cnt f p) | ANo => words_w ws (f_no f) | ABad => Refused end
        end
      else words_w ws f
  end.
(** writer_reflect.go:704-801 *)
Definition parse_w (s : string) : parsed :=
  match words_w (split s) (mkFld false None None false) with
  | Used f => match cnt f, sz f with Some _, Some _ => Refused | _, _ => Used f end
  | r => r
  end.
(** the loop over the words, reader_reflect.go:1013-1092 *)
Fixpoint words_r (ws : list string) (f : fld) : parsed :=
  match ws with
  | [] => Used f
  | m :: ws =>
      if m =? "skip" then Skipped (nosize f)
      else if m =? "ber" then words_r ws (f_ber f)
      else if has_prefix "size(" m then
        match cut 5 m with
        | None => Refused
        | Some t => match argument t with APk p => words_r ws (f_sz f p) | ANo => words_r ws (f_no f) | ABad => Refused end
        end
      else if has_prefix "cnt(" m then
        match cut 4 m with
        | None => Refused
        | Some t => match argument t with APk p => words_r ws (f_cnt f p) | ANo => words_r ws (f_no f) | ABad => Refused end
        end
      else words_r ws f
  end.
(** reader_reflect.go:1009-1106 *)
Definition parse_r (s : string) : parsed :=
  match words_r (split s) (mkFld false None None false) with
  | Used f => match cnt f, sz f with Some _, Some _ => Refused | _, _ => Used f end
  | r => r
  end.
(** which method a field is written with, writer_reflect.go:674-687: the tag of CodecModel.v *)
Definition framed_w (f : fld) : tag :=
  match sz f with
  | Some p => TgSize p
  | None => match cnt f with Some p => TgCnt p | None => if nosize f then TgNo else TgAuto end
  end.
(** which method it is read with, reader_reflect.go:965-992 *)
Definition framed_r (f : fld) : tag :=
  match sz f with
  | Some p => TgSize p
  | None => match cnt f with Some p => TgCnt p | None => if nosize f then TgNo else TgAuto end
  end.

(** bookkeeping: one field of a struct type: exported or not, and the text of its tag *)
Definition sfield := (bool * string)%type.
(** the loop over the fields, writer_reflect.go:694-801: which fields are used, or a panic. What _writer makes of the types of the
    fields is CodecModel.v *)
Fixpoint fields_w (fs : list sfield) (no : bool) : option (list (option (bool * tag))) :=
  match fs with
  | [] => Some []
  | (exported, s) :: fs =>
      if negb exported then option_map (cons None) (fields_w fs no)
      else if no then None
      else match parse_w s with
           | Refused => None
           | Skipped no => option_map (cons None) (fields_w fs no)
           | Used f => option_map (cons (Some (ber f, framed_w f))) (fields_w fs (nosize f))
           end
  end.
(** the loop over the fields, reader_reflect.go:999-1106 *)
Fixpoint fields_r (fs : list sfield) (no : bool) : option (list (option (bool * tag))) :=
  match fs with
  | [] => Some []
  | (exported, s) :: fs =>
      if negb exported then option_map (cons None) (fields_r fs no)
      else if no then None
      else match parse_r s with
           | Refused => None
           | Skipped no => option_map (cons None) (fields_r fs no)
           | Used f => option_map (cons (Some (ber f, framed_r f))) (fields_r fs (nosize f))
           end
  end.
