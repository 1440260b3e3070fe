(** Model of WriteWithSize and WriteValueWithSize (marshal/writer_reflect.go:170-223), ReadWithSize and ReadValueWithSize
    (marshal/reader_reflect.go:198-278), and of Reader.Done and Reader.Error (marshal/reader_reflect.go:1191-1202).

    The function that writes or reads the size is the one of a size() tag, given by [p]. Simplifications: those of
    CodecModel.v; a reflect.Value given to a Writer cannot be addressed, one given to a Reader can be set. *)
From Coq Require Import ZArith List Bool.
Import ListNotations.
From Verif Require Import Base PrimModel CodecModel.
Open Scope Z_scope.

(** WriterFor(rt).WithSize, marshal/writer_reflect.go:219-223, 303-324 *)
Definition WriteValueWithSize (p : pk) (t : ty) (v : val t) : out (list Z) :=
  match Sz false t with None => Panic | Some _ => with_size p (size_of t v) (enc false false t v) end.
(** marshal/writer_reflect.go:170-217 *)
Definition WriteWithSize (p : pk) (t : ty) : val t -> out (list Z) :=
  match t return val t -> out (list Z) with
  | TNum k => fun v => Ok (prefix p (Z.of_nat (width k)) ++ put (WFixed k v))
  | TStr => fun v => Ok (prefix p (zlen v) ++ put (WBytes v))
  | TSl t =>
      match t return list (val t) -> out (list Z) with
      | TNum U8 => fun v => Ok (prefix p (zlen v) ++ put (WBytes v))
      | t => WriteValueWithSize p (TSl t)
      end
  | t => WriteValueWithSize p t
  end.
(** ReaderFor(rt).WithSize, marshal/reader_reflect.go:270-278, 445-472 *)
Definition ReadValueWithSize (p : pk) (t : ty) (old : val t) (s : st) : out (val t * st) :=
  if failed s then Ok (old, s)
  else match Sz true t with
  | None => Panic
  | Some _ =>
      match dec_auto_take t p with
      | Some f => f old s
      | None => dec_with_size (dec Fixed t) (dec Tail t) p old s
      end
  end.
(** Reader.ReadWithSize of a pointer to a variable, marshal/reader_reflect.go:198-268: the size of a number that is not
    the expected one is ignored; of what the type switch does not name the size is not read at all (:254-265) *)
Definition ReadWithSize (p : pk) (t : ty) : val t -> st -> out (val t * st) :=
  match t return val t -> st -> out (val t * st) with
  | TNum k => ReadWithSize_num k p
  | TStr => fun old s => if failed s then Ok (old, s) else do! (sz, s) <- rprefix p s; take sz s
  | TSl t =>
      match t return list (val t) -> st -> out (list (val t) * st) with
      | TNum U8 => fun old s => if failed s then Ok (old, s) else do! (sz, s) <- rprefix p s; take sz s
      | t => fun old s => if failed s then Ok (old, s) else match Sz true (TSl t) with None => Panic | Some _ => dec Auto (TSl t) old s end
      end
  | t => fun old s => if failed s then Ok (old, s) else match Sz true t with None => Panic | Some _ => dec Auto t old s end
  end.
(** Reader.Done, marshal/reader_reflect.go:1191-1193 *)
Definition Done (r : rd) : bool := (zlen (r_body r) =? 0) && match r_err r with None => true | _ => false end.
(** Reader.Error, marshal/reader_reflect.go:1195-1202 *)
Definition Error (r : rd) : option rerr :=
  match r_err r with
  | Some e => Some e
  | None => if 0 <? zlen (r_body r) then Some (ECodec 20) else None
  end.
