(** The tags of struct fields as a user writes them. *)
From Coq Require Import List Bool Arith Ascii String.
Import ListNotations.
From Verif Require Import CodecModel.
Open Scope string_scope.

(** the directives, and how they are written *)
Inductive directive := DSkip | DBer | DSize (p : pk) | DCnt (p : pk) | DSizeNo | DCntNo.
Definition width (p : pk) : string := match p with PBer => "ber" | P8 => "i8" | P16 => "i16" | P32 => "i32" | P64 => "i64" end.
Definition text (d : directive) : string :=
  match d with
  | DSkip => "skip" | DBer => "ber"
  | DSize p => "size(" ++ width p ++ ")" | DCnt p => "cnt(" ++ width p ++ ")"
  | DSizeNo => "size(no)" | DCntNo => "cnt(no)"
  end.
(** several directives are separated by commas *)
Fixpoint texts (ds : list directive) : string :=
  match ds with [] => "" | [d] => text d | d :: ds => text d ++ "," ++ texts ds end.

(** what the directives ask for: nothing is said about the field; it is left out; its numbers are varints; it has this frame *)
Inductive meaning := Left_out | Contradictory | Field (varints : bool) (frame : tag).
Fixpoint last_size (ds : list directive) : option pk :=
  match ds with [] => None | DSize p :: ds => match last_size ds with Some p' => Some p' | None => Some p end | _ :: ds => last_size ds end.
Fixpoint last_cnt (ds : list directive) : option pk :=
  match ds with [] => None | DCnt p :: ds => match last_cnt ds with Some p' => Some p' | None => Some p end | _ :: ds => last_cnt ds end.
Definition is_skip d := match d with DSkip => true | _ => false end.
Definition is_ber d := match d with DBer => true | _ => false end.
Definition is_no d := match d with DSizeNo | DCntNo => true | _ => false end.
Definition means (ds : list directive) : meaning :=
  if existsb is_skip ds then Left_out
  else match last_size ds, last_cnt ds with
       | Some _, Some _ => Contradictory
       | Some p, None => Field (existsb is_ber ds) (TgSize p)
       | None, Some p => Field (existsb is_ber ds) (TgCnt p)
       | None, None => Field (existsb is_ber ds) (if existsb is_no ds then TgNo else TgAuto)
       end.

(** the fields of a struct type: exported or not, and the directives of the tag *)
Definition dfield := (bool * list directive)%type.
(** a field that is to be the last one: it has a size(no) or cnt(no), and no skip in front of it *)
Fixpoint to_be_last (ds : list directive) : bool :=
  match ds with [] => false | DSkip :: _ => false | d :: ds => is_no d || to_be_last ds end.
(** such a field is the last exported one *)
Fixpoint last_is_last (fs : list dfield) : Prop :=
  match fs with
  | [] => True
  | (e, ds) :: fs => (e = true -> to_be_last ds = true -> Forall (fun f => fst f = false) fs) /\ last_is_last fs
  end.
(** what becomes of a field: nothing, or varints or not and a frame *)
Definition becomes (f : dfield) : option (bool * tag) :=
  if fst f then match means (snd f) with Field b t => Some (b, t) | _ => None end else None.
Definition contradictory (f : dfield) : Prop := fst f = true /\ means (snd f) = Contradictory.
