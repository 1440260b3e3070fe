(** What a program relies on when it reads values of named types back. *)
From Coq Require Import ZArith List Bool Arith.
Import ListNotations.
From Verif Require Import Base PrimModel PrimSpec.
From Verif Require CodecModel CodecSpec.
From Verif Require Import RegModel FillModel NomModel NomSpec NomLaySpec NomRdModel.
Open Scope Z_scope.

(** a Reader without error with the bytes b to read; [al]: the lengths of the slices made so far *)
Definition at_bytes (b al : list Z) : st := mkSt (mkRd b None) al.

(** ** Histories of ReaderFor *)
Definition rcontains (R : nat -> rshape) (t u : nat) : Prop :=
  match R t with
  | RArr _ e | RSl e | RPtr e => u = e
  | RStruct fs => exists tg, In (tg, u) fs /\ tg <> TgSkip
  | _ => False
  end.
Inductive rwithin (R : nat -> rshape) (t : nat) : nat -> Prop :=
| rwithin_self : rwithin R t t
| rwithin_part u w : rwithin R t u -> rcontains R u w -> rwithin R t w.
Definition rhistory (R : nat -> rshape) (es : list ev) : list obs * ist info := istart (rprog R) info (rpend R) (rfin R) es.
Definition rgiven (R : nat -> rshape) (es : list ev) (t : nat) : Prop := exists k o, In (ORet k t o) (fst (rhistory R es)).
Definition rtable (R : nat -> rshape) (x : ist info) (t : nat) : info := match RegModel.ws (fst x) t with Some o => snd x o | None => rpend R t end.
Definition rafter (R : nat -> rshape) (es : list ev) : nat -> info := rtable R (snd (rhistory R es)).
(** the codecs [g] that reading a value v of type t finds: each is as some history of calls of ReaderFor left it *)
Definition rfound (R : nat -> rshape) (g : nat -> info) (t : nat) (v : dv) : Prop :=
  forall u, u = t \/ holds u v -> exists es, rgiven R es u /\ forall w, rwithin R u w -> g w = rafter R es w.

Section Types.
Variable T : nat -> shape.
Variable R : nat -> rshape.

(** the reader and the writer see the same type; a type with IRead may be any for the writer *)
Definition same_shape (s : shape) (r : rshape) : Prop :=
  match r with
  | RNum k => s = SNum k
  | RStr => s = SStr
  | RArr n e => s = SArr n e
  | RSl e => s = SSl e
  | RPtr e => s = SPtr e
  | RStruct fs => s = SStruct fs
  | RIface => s = SIface
  | RUser _ => True
  | ROther => False
  end.
(** [alike t x v]: the values x and v of type t are the same but for fields marked skip *)
Inductive alike : nat -> dv -> dv -> Prop :=
| ak_same t v : alike t v v
| ak_arr t n e l m : T t = SArr n e -> alikes e l m -> alike t (VSeq l) (VSeq m)
| ak_sl t e l m : T t = SSl e -> alikes e l m -> alike t (VSeq l) (VSeq m)
| ak_ptr t e v w : T t = SPtr e -> alike e v w -> alike t (VRef v) (VRef w)
| ak_struct t fs l m : T t = SStruct fs -> alike_fields fs l m -> alike t (VSeq l) (VSeq m)
| ak_iface t u v w : T t = SIface -> alike u v w -> alike t (VDyn u v) (VDyn u w)
with alikes : nat -> list dv -> list dv -> Prop :=
| ak_nil e : alikes e [] []
| ak_cons e v w l m : alike e v w -> alikes e l m -> alikes e (v :: l) (w :: m)
with alike_fields : list (tag * nat) -> list dv -> list dv -> Prop :=
| af_nil : alike_fields [] [] []
| af_skip e fs v w l m : alike_fields fs l m -> alike_fields ((TgSkip, e) :: fs) (v :: l) (w :: m)
| af_cons tg e fs v w l m : alike e v w -> alike_fields fs l m -> alike_fields ((tg, e) :: fs) (v :: l) (w :: m).
(** a variable of type t *)
Inductive shaped : nat -> dv -> Prop :=
| sh_num t k x : T t = SNum k -> shaped t (VNum x)
| sh_str t l : T t = SStr -> shaped t (VStr l)
| sh_arr t n e l : T t = SArr n e -> length l = n -> shapes e l -> shaped t (VSeq l)
| sh_sl t e l : T t = SSl e -> shapes e l -> shaped t (VSeq l)
| sh_nil t e : T t = SPtr e -> shaped t VNil
| sh_ptr t e v : T t = SPtr e -> shaped e v -> shaped t (VRef v)
| sh_struct t fs l : T t = SStruct fs -> shape_fields fs l -> shaped t (VSeq l)
| sh_user t u v : T t = SUser u -> shaped t v
with shapes : nat -> list dv -> Prop :=
| shs_nil e : shapes e []
| shs_cons e v l : shaped e v -> shapes e l -> shapes e (v :: l)
with shape_fields : list (tag * nat) -> list dv -> Prop :=
| shf_nil : shape_fields [] []
| shf_skip e fs v l : shape_fields fs l -> shape_fields ((TgSkip, e) :: fs) (v :: l)
| shf_cons tg e fs v l : shaped e v -> shape_fields fs l -> shape_fields ((tg, e) :: fs) (v :: l).

(** ** Types that can be read back into every variable *)
Variable g : nat -> info.
(** a type with size(no) in it on a string, a slice, or again such a type: it extends to the end of the bytes *)
Inductive open : nat -> Prop :=
| op_struct t fs e : T t = SStruct fs -> In (TgNo, e) fs -> match T e with SStr | SSl _ => True | _ => False end -> open t
| op_part t fs e : T t = SStruct fs -> In (TgNo, e) fs -> open e -> open t.
(** no value of the type stands for no bytes *)
Definition solid (e : nat) : Prop := forall v b, means T true e v b -> b <> [].
Definition is_ptr (t : nat) : Prop := match T t with SPtr _ => True | _ => False end.
(** read to the end of the bytes: not slices of numbers except bytes, and not of elements that may be empty *)
Definition tails (t : nat) : Prop :=
  match T t with
  | SSl e => solid e /\ forall k, T e = SNum k -> k = U8
  | SPtr _ => False
  | _ => True
  end.
Definition field_ok (f : tag * nat) : Prop :=
  let e := snd f in
  match fst f with
  | CodecModel.TgSkip => True
  | CodecModel.TgSize p =>
      p <> CodecModel.P64 /\
      match T e with
      | SPtr x => exists z, 0 < z /\ fixed T x z
      | SSl x => solid x /\ size_kept T g x /\ i_sz (g x) <> 0
      | _ => size_kept T g e
      end
  | CodecModel.TgCnt p => p <> CodecModel.P64 /\ ~ open e
  | CodecModel.TgNo => (i_sz (g e) = 0 -> fixed T e 0) /\ tails e
  | _ => (i_sz (g e) = 0 -> fixed T e 0) /\ ~ open e /\ ~ is_ptr e
  end.
(** IRead gives what IWrite wrote, whatever the variable held; counts and sizes are accepted *)
Definition undone_by (f : dv -> st -> out (dv * st)) (u : user) (to_end : bool) : Prop :=
  forall v old b rest al, u_write u v = Ok b -> (to_end = true -> rest = []) -> exists al', f old (at_bytes (b ++ rest) al) = Ok (v, at_bytes rest al').
Definition matches (u : user) (r : ruser) : Prop :=
  u_kind u = KOther /\ ru_kind r = KOther /\ undone_by (ru_read r) u false /\
  match ru_tail r with Some f => undone_by f u true | None => True end /\
  match ru_ssize r with Some f => forall old n, exists x y, f old n = Ok (x, y) /\ y <> SzErr | None => True end /\
  match u_count u, cntset r with Some _, Some f => forall old n, exists x, f old n = Ok (x, true) | None, None => True | _, _ => False end.
(** numbers, strings, arrays, slices, structs; types with methods; pointers, in fields with cnt() or size(), to numbers, structs and
    arrays. Types may contain themselves. *)
Definition type_ok (t : nat) : Prop :=
  same_shape (T t) (R t) /\ (forall r, R t = RUser r -> exists u, T t = SUser u /\ matches u r) /\
  match T t with
  | SArr _ e | SSl e => ~ open e /\ ~ is_ptr e
  | SPtr e => ~ open e /\ match T e with SNum _ | SStruct _ => True | SArr n _ => n <> O | _ => False end
  | SStruct fs => Forall field_ok fs
  | SUser _ => exists r, R t = RUser r
  | SIface | SOther => False
  | _ => True
  end.
Definition readable (t : nat) : Prop := forall u, within T t u -> type_ok u.

Variable Z0 : nat -> dv.
(** reflect.Zero of a type is a value of that type *)
Definition zeros (t : nat) : Prop := forall u, within T t u -> shaped u (Z0 u).

(** ** Values and variables that fit each other, for all types *)
(** what the elements of a slice are read into: those of the variable, then new ones *)
Fixpoint padded (z : dv) (n : nat) (o : list dv) : list dv := match n with O => [] | S n => hd z o :: padded z n (tl o) end.
Definition resliced (e : nat) (o : list dv) (n : nat) : list dv := if (length o =? n)%nat then o else repeat (Z0 e) n.
(** neither a pointer nor an interface *)
Definition flat (t : nat) : Prop := match R t with RPtr _ | RIface => False | RUser u => ru_kind u = KOther | _ => True end.
(** [resize can t old n x y]: told that n bytes follow, the reader of type t makes x of the variable, and will read exactly a value
    of the size of x (y = true), or to the end of the n bytes. [can]: the variable can be set. *)
Inductive resize : bool -> nat -> dv -> Z -> dv -> bool -> Prop :=
| rz_kept can t old n : flat t -> 0 <= n -> i_sz (g t) = n -> resize can t old n old true
| rz_none can t old n : flat t -> i_sz (g t) < 0 -> i_get (g t) = false -> resize can t old n old false
| rz_slice can t e o n m : R t = RSl e -> i_sz (g t) < 0 -> i_get (g t) = true -> 0 < i_sz (g e) -> n = Z.of_nat m * i_sz (g e) -> can = true \/ length o = m ->
    resize can t (VSeq o) n (VSeq (resliced e o m)) true
| rz_user can t r f old n x y : R t = RUser r -> ru_kind r = KOther -> rno_addr r can = false -> i_sz (g t) < 0 -> i_get (g t) = true -> ru_ssize r = Some f -> f old n = Ok (x, if y : bool then SzYes else SzNo) ->
    resize can t old n x y
| rz_nil can t e : R t = RPtr e -> resize can t VNil 0 VNil true
| rz_clear t e w : R t = RPtr e -> resize true t (VRef w) 0 VNil true
| rz_new t e n x y : R t = RPtr e -> n <> 0 -> resize true e (Z0 e) n x y -> resize true t VNil n (VRef x) y
| rz_ref can t e w n x y : R t = RPtr e -> n <> 0 \/ can = false -> resize true e w n x y -> resize can t (VRef w) n (VRef x) y
| rz_none_held can t : R t = RIface -> i_sz (g t) < 0 -> i_get (g t) = false -> resize can t VNil 0 VNil false
| rz_held can t u w n x y : R t = RIface -> n <> 0 \/ can = false -> resize false u w n x y -> resize can t (VDyn u w) n (VDyn u x) y.
(** [recount can t old n x]: told that there are n elements, the reader makes x of the variable *)
Inductive recount : bool -> nat -> dv -> Z -> dv -> Prop :=
| rc_const can t old n : flat t -> 0 <= n -> i_cnt (g t) = n -> recount can t old n old
| rc_slice can t e o m : R t = RSl e -> i_cnt (g t) < 0 -> can = true \/ length o = m -> recount can t (VSeq o) (Z.of_nat m) (VSeq (resliced e o m))
| rc_user can t r f old n x : R t = RUser r -> ru_kind r = KOther -> i_cnt (g t) < 0 -> rno_addr r can = false -> cntset r = Some f -> f old n = Ok (x, true) -> recount can t old n x
| rc_nil can t e : R t = RPtr e -> recount can t VNil 0 VNil
| rc_clear t e w : R t = RPtr e -> recount true t (VRef w) 0 VNil
| rc_new t e n x : R t = RPtr e -> n <> 0 -> recount true e (Z0 e) n x -> recount true t VNil n (VRef x)
| rc_ref can t e w n x : R t = RPtr e -> n <> 0 \/ can = false -> recount true e w n x -> recount can t (VRef w) n (VRef x)
| rc_held can t u w n x : R t = RIface -> n <> 0 \/ can = false -> recount false u w n x -> recount can t (VDyn u w) n (VDyn u x).
Section All2.
Variable P : dv -> dv -> Prop.
Fixpoint all2 (l m : list dv) : Prop := match l, m with [], [] => True | x :: l, y :: m => P x y /\ all2 l m | _, _ => False end.
End All2.
(** strings and []uint8 take any count or size *)
Definition is_text (t : nat) : bool := match R t with RStr => true | RSl e => match R e with RNum U8 => true | _ => false end | _ => false end.
Definition text_ok (can : bool) (t : nat) (v old : dv) : Prop :=
  match R t with
  | RStr => T t = SStr /\ can = true
  | RSl e => T t = SSl e /\ T e = SNum U8 /\ match v, old with VSeq l, VSeq o => can = true \/ length o = length l | _, _ => False end
  | _ => False
  end.
Definition undone (auto to_end : bool) (f : dv -> st -> out (dv * st)) (t : nat) (v old : dv) : Prop :=
  forall b rest al, means T auto t v b -> (to_end = true -> rest = []) -> exists al', f old (at_bytes (b ++ rest) al) = Ok (v, at_bytes rest al').
(** [ready m can auto t v old]: what stands for v, with a count in front of it or not ([auto]), can be read into the variable [old]
    with the reader's Fixed, Auto or Tail (m). Interfaces must hold the type already, pointers outside cnt() and size() must not be
    nil. *)
Fixpoint ready (m : mode) (can auto : bool) (t : nat) (v old : dv) {struct v} : Prop :=
  same_shape (T t) (R t) /\
  match R t with
  | RNum k => match v with VNum _ => can = true | _ => False end
  | RStr => match v with VStr _ => can = true /\ auto = match m with CodecModel.Tail => false | _ => true end | _ => False end
  | RArr n e => match v, old with VSeq l, VSeq o => all2 (fun x y => ready Auto can true e x y) l o | _, _ => False end
  | RSl e =>
      match v, old with
      | VSeq l, VSeq o =>
          match m with
          | CodecModel.Fixed => auto = false /\ all2 (fun x y => ready Auto true true e x y) l o
          | CodecModel.Auto => auto = true /\ (can = true \/ length o = length l) /\ all2 (fun x y => ready Auto true true e x y) l (resliced e o (length l))
          | CodecModel.Tail => auto = false /\
              if can then (forall k, R e = RNum k -> k = U8 /\ T e = SNum U8) /\ (forall x b, In x l -> means T true e x b -> b <> []) /\
                          all2 (fun x y => ready Auto true true e x y) l (padded (Z0 e) (length l) o)
              else all2 (fun x y => ready Auto true true e x y) l o
          end
      | _, _ => False
      end
  | RPtr e =>
      match v, old with
      | VNil, VNil => True
      | VRef w, VRef o => m <> Tail /\ ready Fixed true auto e w o
      | _, _ => False
      end
  | RStruct fs =>
      match v, old with
      | VSeq vs, VSeq os =>
          (fix flds (fs : list (tag * nat)) (vs os : list dv) {struct vs} : Prop :=
             match fs, vs, os with
             | [], [], [] => True
             | (tg, e) :: fs, v :: vs, o :: os =>
                 match tg with
                 | CodecModel.TgSkip => True
                 | CodecModel.TgSize p => p <> CodecModel.P64 /\
                     if is_text e then text_ok can e v o
                     else forall b, means T false e v b -> exists x y, resize can e o (zlen b) x y /\ ready (if y : bool then Fixed else Tail) can false e v x
                 | CodecModel.TgCnt p => p <> CodecModel.P64 /\
                     if is_text e then text_ok can e v o
                     else forall n, amount T e v n -> exists x, recount can e o n x /\ ready Fixed can false e v x
                 | CodecModel.TgNo => (i_sz (g e) = 0 -> fixed T e 0 /\ alike e o v) /\ ready match m with CodecModel.Tail => Tail | _ => Fixed end can false e v o
                 | _ => (i_sz (g e) = 0 -> fixed T e 0 /\ alike e o v) /\ ready Auto can true e v o
                 end /\ flds fs vs os
             | _, _, _ => False
             end) fs vs os
      | _, _ => False
      end
  | RIface =>
      match v, old with
      | VNil, VNil => True
      | VDyn u w, VDyn u' o => u' = u /\ ready match m with CodecModel.Tail => Tail | _ => Fixed end false auto u w o
      | _, _ => False
      end
  | RUser r =>
      rno_addr r can = false /\
      match m with
      | CodecModel.Fixed => undone auto false (ru_read r) t v old
      | CodecModel.Auto =>
          match cntset r with
          | Some f => ru_kind r = KOther /\ auto = true /\ (exists u, T t = SUser u /\ u_count u <> None) /\
                      forall n, amount T t v n -> exists x, f old n = Ok (x, true) /\ undone false false (ru_read r) t v x
          | None => undone auto false (ru_read r) t v old
          end
      | CodecModel.Tail => match ru_tail r with Some f => undone auto true f t v old | None => undone auto true (ru_read r) t v old end
      end
  | ROther => False
  end.
End Types.
