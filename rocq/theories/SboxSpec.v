(** Specification of sbox tuples and requests: what the bytes should be, independently of how they are made.
    A tuple is a list of fields, a field is a string of bytes. *)
From Coq Require Import ZArith List Bool Arith.
Import ListNotations.
From Verif Require Import Base PrimModel PrimSpec CodecModel CodecSpec CodecProofs SboxModel.
Open Scope Z_scope.

Definition tuple := list (list Z).
(** the wire form: a uint32 number of fields, then each field after its base-128 length *)
Definition field_bytes (f : list Z) : list Z := var_bytes (zlen f) ++ f.
Definition tuple_bytes (f : tuple) : list Z := le_enc 4 (zlen f) ++ flat_map field_bytes f.
(** as sent in results: preceded by the uint32 size of its fields *)
Definition sized_bytes (f : tuple) : list Z := le_enc 4 (zlen (flat_map field_bytes f)) ++ tuple_bytes f.
Definition tuple_ok (f : tuple) : Prop := zlen f < 2 ^ 32 /\ Forall (fun f => zlen f < 2 ^ 63) f.

(** the fields a value stands for: one for a number, string, []byte or [n]byte, one for each element of any
    other slice or array, one for each exported field of a struct that is not tagged skip *)
Fixpoint struct_fields (fs : flds) : vals fs -> tuple :=
  match fs return vals fs -> tuple with
  | FNil => fun _ => []
  | FCons tg t fs => fun vs =>
      let '(v, vs) := vs in
      match tg with TgSkip => struct_fields fs vs | _ => lay false t v :: struct_fields fs vs end
  end.
Fixpoint fields (t : ty) : val t -> tuple :=
  match t return val t -> tuple with
  | TArr n t => match t return list (val t) -> tuple with TNum U8 => fun v => [lay false (TArr n (TNum U8)) v] | t => fun v => map (lay false t) v end
  | TSl t => match t return list (val t) -> tuple with TNum U8 => fun v => [lay false (TSl (TNum U8)) v] | t => fun v => map (lay false t) v end
  | TPtr t => fun v => match v with None => [] | Some v => fields t v end
  | TStruct fs => struct_fields fs
  | t => fun v => [lay false t v]
  end.
(** no pointer that stands for the tuple itself is nil *)
Fixpoint not_nil (t : ty) : val t -> Prop :=
  match t return val t -> Prop with TPtr t => fun v => match v with None => False | Some v => not_nil t v end | _ => fun _ => True end.

(** ** Types and values for which the code works *)
Definition fill_ok (t : ty) : bool := match Sz false t, Sz true t with Some _, Some _ => true | _, _ => false end.
Fixpoint sfields_good (addr : bool) (fs : flds) : bool :=
  match fs with
  | FNil => true
  | FCons tg t fs =>
      match tg with
      | TgSkip => true
      | _ => negb (drop false tg t) && negb (drop true tg t) && size_ok addr t
      end && sfields_good addr fs
  end.
Fixpoint tuple_good (addr : bool) (t : ty) : bool :=
  match t with
  | TNum _ | TStr => true
  | TVar _ => false
  | TArr _ (TNum U8) | TSl (TNum U8) => true
  | TArr _ t => size_ok addr t
  | TSl t => size_ok true t
  | TPtr t => tuple_good true t
  | TStruct fs => sfields_good addr fs
  end.
Definition good (t : ty) : bool := tuple_good false t && fill_ok t.
(** a field value *)
Definition ffit (t : ty) (v : val t) : Prop := fits t v /\ zlen (lay false t v) < 2 ^ 63 /\ ber_sizes_right t v.
Fixpoint sfields_fit (fs : flds) : vals fs -> Prop :=
  match fs return vals fs -> Prop with
  | FNil => fun _ => True
  | FCons tg t fs => fun vs =>
      let '(v, vs) := vs in
      match tg with TgSkip => True | _ => ffit t v end /\ sfields_fit fs vs
  end.
Fixpoint tuple_fit (t : ty) : val t -> Prop :=
  match t return val t -> Prop with
  | TArr n t =>
      match t return list (val t) -> Prop with
      | TNum U8 => fits (TArr n (TNum U8))
      | t => fun v => length v = n /\ Forall (ffit t) v
      end
  | TSl t =>
      match t return list (val t) -> Prop with
      | TNum U8 => fits (TSl (TNum U8))
      | t => Forall (ffit t)
      end
  | TPtr t => fun v => match v with None => True | Some v => tuple_fit t v end
  | TStruct fs => sfields_fit fs
  | t => fits t
  end.
(** the value can be sent as a tuple *)
Definition fit (t : ty) (v : val t) : Prop := tuple_fit t v /\ tuple_ok (fields t v) /\ not_nil t v.

(** an interface{} value as one field; as a tuple *)
Definition item_field (i : itf) : list Z := match i with INil => [] | IVal t v => lay false t v end.
Definition item_good (i : itf) : Prop := match i with INil => False | IVal t v => size_ok false t = true /\ fill_ok t = true /\ ffit t v end.
Definition arg_tuple (a : targ) : tuple :=
  match a with TOne INil => [] | TOne (IVal t v) => fields t v | TIfs l => map item_field l end.
Definition arg_good (a : targ) : Prop :=
  match a with TOne INil => False | TOne (IVal t v) => good t = true /\ fit t v | TIfs l => zlen l < 2 ^ 32 /\ Forall item_good l end.

(** ** Select keys *)
(** a slice or array (but []byte) is a list of keys, anything else is one key *)
Definition value_tuples (t : ty) : val t -> list tuple :=
  match t return val t -> list tuple with
  | TArr _ e | TSl e => fun v => map (fields e) v
  | t => fun v => [fields t v]
  end.
Definition key_tuples (k : keys) : list tuple :=
  match k with
  | KOne INil => []
  | KOne (IVal t v) =>
      match t return val t -> list tuple with
      | TSl (TNum U8) => fun v => [fields (TSl (TNum U8)) v]
      | TPtr t => fun v => match v with None => [] | Some v => value_tuples t v end
      | t => value_tuples t
      end v
  | KIfs l => map arg_tuple l
  end.
Definition value_good (addr : bool) (t : ty) : val t -> Prop :=
  match t return val t -> Prop with
  | TArr _ e => fun v => tuple_good addr e = true /\ fill_ok e = true /\ Forall (fit e) v
  | TSl e => fun v => tuple_good true e = true /\ fill_ok e = true /\ Forall (fit e) v
  | TPtr _ | TVar _ => fun _ => False
  | t => fun v => tuple_good addr t = true /\ fill_ok t = true /\ fit t v
  end.
Definition keys_good (k : keys) : Prop :=
  match k with
  | KOne INil => False
  | KOne (IVal t v) =>
      match t return val t -> Prop with
      | TSl (TNum U8) => fit (TSl (TNum U8))
      | TPtr t => fun v => match v with None => False | Some v => value_good true t v end
      | t => value_good false t
      end v
  | KIfs l => Forall (fun a => arg_good a /\ count_targ a = Ok 1) l
  end /\ zlen (key_tuples k) < 2 ^ 32.

(** ** What a request says *)
Inductive view :=
| VSelect (space index offset limit : Z) (ks : list tuple)
| VStore (space : Z) (ret : bool) (mode : Z) (t : tuple)
| VDelete (space : Z) (ret : bool) (key : tuple)
| VUpdate (space : Z) (ret : bool) (key : tuple) (ops : list (Z * Z * list Z))   (* field, operation number, value *)
| VRpc (name : list Z) (args : list (list Z)).
Definition view_msg (v : view) : Z :=
  match v with VSelect _ _ _ _ _ => 17 | VStore _ _ _ _ => 13 | VDelete _ _ _ => 21 | VUpdate _ _ _ _ => 19 | VRpc _ _ => 22 end.
(** the protocol's layout of it *)
Definition op_bytes (o : Z * Z * list Z) : list Z := let '(f, c, v) := o in le_enc 4 f ++ [c] ++ field_bytes v.
Definition flag_bytes (ret : bool) (mode : Z) : list Z := le_enc 4 ((if ret then 1 else 0) + 2 * mode).
Definition view_bytes (v : view) : list Z :=
  match v with
  | VSelect s i o l ks => le_enc 4 s ++ le_enc 4 i ++ le_enc 4 o ++ le_enc 4 l ++ le_enc 4 (zlen ks) ++ flat_map tuple_bytes ks
  | VStore s r m t => le_enc 4 s ++ flag_bytes r m ++ tuple_bytes t
  | VDelete s r k => le_enc 4 s ++ flag_bytes r 0 ++ tuple_bytes k
  | VUpdate s r k ops => le_enc 4 s ++ flag_bytes r 0 ++ tuple_bytes k ++ le_enc 4 (zlen ops) ++ flat_map op_bytes ops
  | VRpc n a => le_enc 4 0 ++ field_bytes n ++ le_enc 4 (zlen a) ++ flat_map field_bytes a
  end.
Definition u32_ok (x : Z) : Prop := 0 <= x < 2 ^ 32.
Definition view_ok (v : view) : Prop :=
  match v with
  | VSelect s i o l ks => u32_ok s /\ u32_ok i /\ u32_ok o /\ u32_ok l /\ zlen ks < 2 ^ 32 /\ Forall tuple_ok ks
  | VStore s r m t => u32_ok s /\ 0 <= m < 2 ^ 16 /\ tuple_ok t
  | VDelete s r k => u32_ok s /\ tuple_ok k
  | VUpdate s r k ops => u32_ok s /\ tuple_ok k /\ zlen ops < 2 ^ 32 /\
      Forall (fun o => u32_ok (fst (fst o)) /\ 0 <= snd (fst o) < 256 /\ zlen (snd o) < 2 ^ 63) ops
  | VRpc n a => zlen n < 2 ^ 63 /\ tuple_ok a
  end.
(** the eight operations and their numbers *)
Definition op_number (k : Z) : option Z :=
  match k with
  | 61 => Some 0 | 43 => Some 1 | 38 => Some 2 | 124 => Some 3 | 94 => Some 4 | 115 => Some 5 | 100 => Some 6 | 105 => Some 7
  | _ => if (0 <=? k) && (k <=? 7) then Some k else None
  end.
Definition op_view (o : op) : Z * Z * list Z :=
  (op_field o, match op_number (op_kind o) with Some c => c | None => 0 end, item_field (op_val o)).
Definition op_good (o : op) : Prop := u32_ok (op_field o) /\ op_number (op_kind o) <> None /\ item_good (op_val o).
(** limit: negative means "no limit", -2 "as many as there are keys" *)
Definition limit_of (l n : Z) : Z := if 0 <=? l then l else if l =? -2 then n else 2 ^ 31 - 1.
Definition view_of (q : request) : view :=
  match q with
  | RSelect q => VSelect (sel_space q) (sel_index q) (sel_offset q) (limit_of (sel_limit q) (zlen (key_tuples (sel_keys q)))) (key_tuples (sel_keys q))
  | RStore q => VStore (st_space q) (st_return q) (st_mode q) (arg_tuple (st_tuple q))
  | RDelete q => VDelete (dl_space q) (dl_return q) (arg_tuple (dl_key q))
  | RUpdate q => VUpdate (up_space q) (up_return q) (arg_tuple (up_key q)) (map op_view (up_ops q))
  | RRpc q => VRpc (rpc_name q) (rpc_args q)
  end.
Definition request_good (q : request) : Prop :=
  match q with
  | RSelect q => u32_ok (sel_space q) /\ u32_ok (sel_index q) /\ u32_ok (sel_offset q) /\ - 2 ^ 31 <= sel_limit q < 2 ^ 31 /\ keys_good (sel_keys q)
  | RStore q => u32_ok (st_space q) /\ 0 <= st_mode q < 2 ^ 16 /\ arg_good (st_tuple q)
  | RDelete q => u32_ok (dl_space q) /\ arg_good (dl_key q)
  | RUpdate q => u32_ok (up_space q) /\ arg_good (up_key q) /\ zlen (up_ops q) < 2 ^ 32 /\ Forall op_good (up_ops q)
  | RRpc q => zlen (rpc_name q) < 2 ^ 63 /\ tuple_ok (rpc_args q)
  end.

(** ** Tails: each element of the slice is one field (tail), or gives the fields of a struct (tailsplit) *)
Definition tail_fields (k : tailkind) (fs : flds) (vs : vals fs) (e : ty) (xs : list (val e)) : tuple :=
  struct_fields fs vs ++ match k with SboxModel.Tail => map (lay false e) xs | TailSplit => flat_map (fields e) xs end.
