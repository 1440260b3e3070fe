(** The bytes a value of a named type stands for, and the types and values for which the writer keeps to it. *)
From Coq Require Import ZArith List Bool Arith.
Import ListNotations.
From Verif Require Import Base PrimModel PrimSpec.
From Verif Require CodecModel CodecSpec.
From Verif Require Import NomModel.
Open Scope Z_scope.

Notation pre := CodecSpec.pre. Notation pfits := CodecSpec.pfits. Notation size_right := CodecSpec.size_right.
(** a uint32 count, where counts are written *)
Definition count4 (auto : bool) (n : Z) : list Z := if auto then le_enc 4 n else [].

Section Types.
Variable T : nat -> shape.

(** ** The layout *)
(** the number of elements of a value: what cnt() announces *)
Inductive amount : nat -> dv -> Z -> Prop :=
| am_num t k v : T t = SNum k -> amount t v 1
| am_struct t fs v : T t = SStruct fs -> amount t v 1
| am_str t l : T t = SStr -> amount t (VStr l) (zlen l)
| am_arr t n e v : T t = SArr n e -> amount t v (Z.of_nat n)
| am_sl t e l : T t = SSl e -> amount t (VSeq l) (zlen l)
| am_nilptr t e : T t = SPtr e -> amount t VNil 0
| am_ptr t e w n : T t = SPtr e -> amount e w n -> amount t (VRef w) n
| am_niliface t : T t = SIface -> amount t VNil 0
| am_iface t u w n : T t = SIface -> amount u w n -> amount t (VDyn u w) n
| am_user t u f v : T t = SUser u -> u_kind u = KOther \/ (u_kind u = KPtr /\ v <> VNil) -> u_count u = Some f -> 0 <= f v -> amount t v (f v)
| am_niluser t u : T t = SUser u -> u_kind u <> KOther -> amount t VNil 0
| am_dynuser t u t' w n : T t = SUser u -> u_kind u = KIface -> amount t' w n -> amount t (VDyn t' w) n.
(** [means auto t v b]: b stands for the value v of type t. [auto]: strings, slices and types with ICount start with a uint32
    count. Elements, and fields without tag, do. Numbers are in the range of their kind, counts and sizes fit their prefixes. A
    pointer stands for what it points to, an interface for what it holds; nothing stands for a nil. *)
Inductive means : bool -> nat -> dv -> list Z -> Prop :=
| me_num a t k x : T t = SNum k -> kind_ok k x -> means a t (VNum x) (layout k x)
| me_str a t l : T t = SStr -> zlen l < 2 ^ 32 -> means a t (VStr l) (count4 a (zlen l) ++ l)
| me_arr a t n e l b : T t = SArr n e -> length l = n -> items e l b -> means a t (VSeq l) b
| me_sl a t e l b : T t = SSl e -> zlen l < 2 ^ 32 -> items e l b -> means a t (VSeq l) (count4 a (zlen l) ++ b)
| me_ptr a t e w b : T t = SPtr e -> means a e w b -> means a t (VRef w) b
| me_nil t e : T t = SPtr e -> means false t VNil []
| me_struct a t fs vs b : T t = SStruct fs -> parts fs vs b -> means a t (VSeq vs) b
| me_niliface a t : T t = SIface -> means a t VNil []
| me_iface a t u w b : T t = SIface -> means a u w b -> means a t (VDyn u w) b
| me_user a t u v b : T t = SUser u -> a && (if u_count u then true else false) = false -> u_write u v = Ok b -> means a t v b
| me_counted t u v n b : T t = SUser u -> u_count u <> None -> u_write u v = Ok b -> amount t v n -> n < 2 ^ 32 -> means true t v (le_enc 4 n ++ b)
with items : nat -> list dv -> list Z -> Prop :=
| it_nil e : items e [] []
| it_cons e v l a b : means true e v a -> items e l b -> items e (v :: l) (a ++ b)
with parts : list (tag * nat) -> list dv -> list Z -> Prop :=
| pa_nil : parts [] [] []
| pa_skip e fs v vs b : parts fs vs b -> parts ((TgSkip, e) :: fs) (v :: vs) b
| pa_auto e fs v vs a b : means true e v a -> parts fs vs b -> parts ((TgAuto, e) :: fs) (v :: vs) (a ++ b)
| pa_size p e fs v vs a b : means false e v a -> pfits p (zlen a) -> parts fs vs b -> parts ((TgSize p, e) :: fs) (v :: vs) (pre p (zlen a) ++ a ++ b)
| pa_cnt p e fs v vs n a b : means false e v a -> amount e v n -> pfits p n -> parts fs vs b -> parts ((TgCnt p, e) :: fs) (v :: vs) (pre p n ++ a ++ b)
| pa_no e fs v vs a b : means false e v a -> parts fs vs b -> parts ((TgNo, e) :: fs) (v :: vs) (a ++ b).
(** what Write sends for an interface value: a type with IWrite by its IWrite alone; a []interface{} and a slice of an interface
    type with IWrite as a count and each element like a value of its own *)
Definition by_itself (t : nat) : bool := match T t with SUser _ => true | SSl e => is_iface T e | _ => false end.
Inductive all_write : user -> list dv -> list Z -> Prop :=
| aw_nil u : all_write u [] []
| aw_cons u v l a b : u_write u v = Ok a -> all_write u l b -> all_write u (v :: l) (a ++ b).
Inductive says : dv -> list Z -> Prop :=
| sa_nil : says VNil []
| sa_user t u v b : T t = SUser u -> u_write u v = Ok b -> says (VDyn t v) b
| sa_ifaces t e l b : T t = SSl e -> T e = SIface -> zlen l < 2 ^ 32 -> all_say l b -> says (VDyn t (VSeq l)) (le_enc 4 (zlen l) ++ b)
| sa_users t e u l b : T t = SSl e -> T e = SUser u -> u_kind u = KIface -> zlen l < 2 ^ 32 -> all_write u l b -> says (VDyn t (VSeq l)) (le_enc 4 (zlen l) ++ b)
| sa_value t v b : by_itself t = false -> means true t v b -> says (VDyn t v) b
with all_say : list dv -> list Z -> Prop :=
| as_nil : all_say [] []
| as_cons i l a b : says i a -> all_say l b -> all_say (i :: l) (a ++ b).
(** WriteTail: the same without the leading count *)
Inductive says_tail : dv -> list Z -> Prop :=
| st_nil : says_tail VNil []
| st_user t u v b : T t = SUser u -> u_write u v = Ok b -> says_tail (VDyn t v) b
| st_ifaces t e l b : T t = SSl e -> T e = SIface -> all_say l b -> says_tail (VDyn t (VSeq l)) b
| st_users t e u l b : T t = SSl e -> T e = SUser u -> u_kind u = KIface -> all_write u l b -> says_tail (VDyn t (VSeq l)) b
| st_value t v b : by_itself t = false -> means false t v b -> says_tail (VDyn t v) b.

(** ** Types of constant size *)
Inductive constcount : nat -> Z -> Prop :=
| cc_num t k : T t = SNum k -> constcount t 1
| cc_struct t fs : T t = SStruct fs -> constcount t 1
| cc_arr t n e : T t = SArr n e -> constcount t (Z.of_nat n).
(** [fixed t z]: every value of type t takes z bytes. cnt(i8) prefixes, and base-128 prefixes whose size is not reckoned right, are
    left out. *)
Inductive fixed : nat -> Z -> Prop :=
| fx_num t k : T t = SNum k -> fixed t (Z.of_nat (width k))
| fx_arr t n e z : T t = SArr n e -> fixed e z -> fixed t (Z.of_nat n * z)
| fx_struct t fs z : T t = SStruct fs -> fixeds fs z -> fixed t z
with fixeds : list (tag * nat) -> Z -> Prop :=
| fs_nil : fixeds [] 0
| fs_skip e fs z : fixeds fs z -> fixeds ((TgSkip, e) :: fs) z
| fs_auto e fs y z : fixed e y -> fixeds fs z -> fixeds ((TgAuto, e) :: fs) (y + z)
| fs_size p e fs y z : fixed e y -> (p = CodecModel.PBer -> y < 2 ^ 63 /\ size_right y) -> fixeds fs z -> fixeds ((TgSize p, e) :: fs) (zlen (pre p y) + y + z)
| fs_cnt p e fs n y z : fixed e y -> constcount e n -> p <> CodecModel.P8 -> (p = CodecModel.PBer -> n < 2 ^ 63 /\ size_right n) -> fixeds fs z -> fixeds ((TgCnt p, e) :: fs) (zlen (pre p n) + y + z).

(** ** What the writer can do *)
Variable g : nat -> info.
(** the size the package keeps for the type is right, or it keeps none *)
Definition size_kept (t : nat) : Prop := i_sz (g t) < 0 \/ fixed t (i_sz (g t)).
(** methods with a value receiver that agree with each other: ISize gives the number of bytes of IWrite or a negative number, a nil
    is written as nothing, a value in an interface is written by its own IWrite *)
Definition honest (u : user) : Prop :=
  u_ptr u = false /\
  (forall f v b, u_size u = Some f -> u_write u v = Ok b -> f v < 0 \/ f v = zlen b) /\
  (u_kind u <> KOther -> forall b, u_write u VNil = Ok b -> b = []) /\
  (u_kind u = KIface -> forall t w b, u_write u (VDyn t w) = Ok b -> exists u', T t = SUser u' /\ u_kind u' <> KIface /\ u_write u' w = Ok b).
(** size() can be asked of the value: not of a pointer type with methods, unless nil *)
Fixpoint sizable (t : nat) (v : dv) {struct v} : Prop :=
  match T t with
  | SPtr e => match v with VRef _ => size_kept e /\ match T e with SSl x => size_kept x | SUser u => honest u | _ => True end | _ => True end
  | SIface => match v with VDyn u w => sizable u w | _ => True end
  | SUser u =>
      honest u /\
      match u_kind u, v with
      | KPtr, VNil | KIface, VNil => True
      | KIface, VDyn t' w => sizable t' w
      | KOther, _ => True
      | _, _ => False
      end
  | SSl x => size_kept x
  | _ => size_kept t
  end.
(** cnt() can be asked of the value: nor of a pointer to a pointer *)
Fixpoint countable (t : nat) (v : dv) {struct v} : Prop :=
  match T t with
  | SPtr e => match v with VRef _ => match T e with SPtr _ | SIface => False | SUser u => u_kind u = KOther /\ u_ptr u = false | _ => True end | _ => True end
  | SIface => match v with VDyn u w => countable u w | _ => True end
  | SUser u =>
      u_ptr u = false /\
      match u_kind u, v with
      | KPtr, VNil | KIface, VNil => True
      | KIface, VDyn t' w => countable t' w
      | KOther, _ => True
      | _, _ => False
      end
  | _ => True
  end.
Section All.
Variable P : dv -> Prop.
Fixpoint all (l : list dv) : Prop := match l with [] => True | v :: l => P v /\ all l end.
End All.
(** the writer can handle the value: no interfaces and no float64 as elements of arrays and slices; no 64-bit prefixes; no field of
    a type that the package takes for empty although it is not; methods with a value receiver; size() and cnt() only where they can
    be asked *)
Fixpoint tidy (t : nat) (v : dv) {struct v} : Prop :=
  match T t with
  | SNum _ | SStr => True
  | SArr _ e | SSl e => T e <> SNum F64 /\ is_iface T e = false /\ match v with VSeq l => all (fun x => tidy e x) l | _ => True end
  | SPtr e => match v with VRef w => tidy e w | _ => True end
  | SStruct fs =>
      match v with
      | VSeq vs =>
          (fix flds (fs : list (tag * nat)) (vs : list dv) {struct vs} : Prop :=
             match fs, vs with
             | (tg, e) :: fs, v :: vs =>
                 match tg with
                 | CodecModel.TgSkip => True
                 | CodecModel.TgSize p => p <> CodecModel.P64 /\ sizable e v /\ tidy e v
                 | CodecModel.TgCnt p => p <> CodecModel.P64 /\ countable e v /\ tidy e v
                 | _ => (i_sz (g e) = 0 -> fixed e 0) /\ tidy e v
                 end /\ flds fs vs
             | _, _ => True
             end) fs vs
      | _ => True
      end
  | SIface => match v with VDyn u w => tidy u w | _ => True end
  | SUser u => u_ptr u = false /\ (u_count u <> None -> countable t v)
  | SOther => False
  end.
Fixpoint neat (i : dv) : Prop :=
  match i with
  | VDyn t v =>
      match T t with
      | SUser u => u_ptr u = false
      | SSl e =>
          match T e, v with
          | SIface, VSeq l => all (fun x => neat x) l
          | SUser u, _ => match u_kind u with KIface => True | _ => tidy t v end
          | _, _ => tidy t v
          end
      | _ => tidy t v
      end
  | _ => True
  end.
End Types.
