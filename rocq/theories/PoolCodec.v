(** The actions of marshal.Write on a value: CodecModel.v's encoders, as what they do to the Writer instead of the bytes they
    give. Where CodecModel.v simplifies, so does this. *)
From Coq Require Import List Bool Arith ZArith Lia.
Import ListNotations.
From Verif Require Import Base PrimModel PrimSpec CodecModel CodecSpec CodecProofs PoolModel PoolSpec.
Open Scope nat_scope.

(** the function given by size(p) / cnt(p), writer_reflect.go:719-795 *)
Definition prefix_call (p : pk) (n : Z) : wcall :=
  match p with PBer => WVar (n mod 2 ^ 64)%Z | P8 => IntUint8 n | P16 => IntUint16 n | P32 => IntUint32 n | P64 => IntUint64 n end.
(** XslVal, writer.go:225-261, writer_any.go:121-271 *)
Definition sl_acts (addr : bool) (k : kind) (xs : list Z) : list act :=
  match xs with
  | [] => []
  | _ =>
      if addr then [Emit match k with F64 => WFloat64sl xs | U8 | I8 => WBytes (map (to_bits k) xs) | _ => WSlice k xs end]
      else map (fun x => Emit (WFixed k x)) xs
  end.
(** WithSize, writer_reflect.go:303-324: a negative size takes another Writer for the body *)
Definition size_acts (p : pk) (sz : Z) (body : list act) : list act :=
  if (0 <=? sz)%Z then Emit (prefix_call p sz) :: body else [Sized (fun n => prefix_call p (Z.of_nat n)) body].
(** WithCount, writer_reflect.go:353-360 *)
Definition cnt_acts (p : pk) (cnt : option Z) (body : list act) : list act :=
  match cnt with None => [Boom] | Some c => Emit (prefix_call p c) :: body end.
(** t.Write and t.WriteAuto, writer_reflect.go:532-687 *)
Fixpoint acts_of (auto addr : bool) (t : ty) : val t -> list act :=
  match t return val t -> list act with
  | TNum k => fun v => [Emit (WFixed k v)]
  | TVar _ => fun v => [Emit (WVar v)]
  | TStr => fun v => if auto then cnt_acts P32 (Some (zlen v)) [Emit (WBytes v)] else [Emit (WBytes v)]
  | TArr n t =>
      match t return (val t -> list act) -> list (val t) -> list act with
      | TNum k => fun _ v => sl_acts addr k v
      | TVar _ => fun f v => if auto then cnt_acts P32 (Some (zlen v)) (flat_map f v) else flat_map f v
      | _ => fun f v => flat_map f v
      end (acts_of true addr t)
  | TSl t =>
      match t return (val t -> list act) -> list (val t) -> list act with
      | TNum k => fun _ v => if auto then cnt_acts P32 (Some (zlen v)) (sl_acts true k v) else sl_acts true k v
      | _ => fun f v => if auto then cnt_acts P32 (Some (zlen v)) (flat_map f v) else flat_map f v
      end (acts_of true true t)
  | TPtr t => fun v => match v with None => if auto then [Boom] else [] | Some v => acts_of auto true t v end
  | TStruct fs => acts_flds addr fs
  end
with acts_flds (addr : bool) (fs : flds) : vals fs -> list act :=
  match fs return vals fs -> list act with
  | FNil => fun _ => []
  | FCons tg t fs => fun vs =>
      let '(v, vs) := vs in
      (if drop false tg t then []
       else match tg with
       | TgSize p => size_acts p (size_of t v) (acts_of false addr t v)
       | TgCnt p => cnt_acts p (cnt_of t v) (acts_of false addr t v)
       | TgNo => acts_of false addr t v
       | _ => acts_of true addr t v
       end) ++ acts_flds addr fs vs
  end.
(** Writer.Write, writer_reflect.go:10-93 *)
Definition write_acts (t : ty) : val t -> list act :=
  match t return val t -> list act with
  | TNum k => fun v => [Emit (WFixed k v)]
  | TStr => fun v => [Emit (IntUint32 (zlen v)); Emit (WBytes v)]
  | TSl (TNum k) => fun v => [Emit (IntUint32 (zlen v)); Emit match k with F64 => WFloat64sl v | U8 => WBytes v | _ => WSlice k v end]
  | t => fun v => match Sz false t with None => [Boom] | Some _ => acts_of true false t v end
  end.
(** Writer.WriteTail, writer_reflect.go:101-168 *)
Definition tail_acts (t : ty) : val t -> list act :=
  match t return val t -> list act with
  | TNum k => fun v => [Emit (WFixed k v)]
  | TSl (TNum k) => fun v => [Emit match k with F64 => WFloat64sl v | U8 => WBytes v | _ => WSlice k v end]
  | t => fun v => match Sz false t with None => [Boom] | Some _ => acts_of false false t v end
  end.

(** ** They are those of the encoder *)
Definition agrees (o : out (list Z)) (l : list act) : Prop :=
  match o with
  | Ok b => forallb calm l = true /\ flat_map bytes_of l = b
  | _ => forallb calm l = false
  end.
Lemma prefix_put p n : prefix p n = put (prefix_call p n).
Proof. now destruct p. Qed.
Lemma agrees_emit c : agrees (Ok (put c)) [Emit c].
Proof. split; [reflexivity|]. cbn. apply app_nil_r. Qed.
Lemma agrees_nil : agrees (Ok []) [].
Proof. now split. Qed.
Lemma agrees_app o1 l1 o2 l2 : agrees o1 l1 -> agrees o2 l2 -> agrees (do! a <- o1; do! b <- o2; Ok (a ++ b)) (l1 ++ l2).
Proof.
  intros H1 H2. destruct o1 as [a| |]; cbn [bind agrees] in *; rewrite ?forallb_app, ?H1; trivial. destruct H1 as [H1 E1]. rewrite ?forallb_app, ?H1.
  destruct o2 as [b| |]; cbn [bind agrees] in *; [|now rewrite forallb_app, H1, H2..]. destruct H2 as [H2 E2]. rewrite forallb_app, H1, H2. split; [reflexivity|].
  rewrite flat_map_app. now rewrite E1, E2.
Qed.
Lemma agrees_pre p n o l : agrees o l -> agrees (do! b <- o; Ok (prefix p n ++ b)) (Emit (prefix_call p n) :: l).
Proof.
  intro H. destruct o as [b| |]; cbn [bind agrees] in *; cbn [forallb calm andb]; trivial. destruct H as [H E]. split; [exact H|]. cbn [flat_map bytes_of]. now rewrite E, prefix_put.
Qed.
Lemma agrees_cnt p c o l : agrees o l -> agrees (with_count p c o) (cnt_acts p c l).
Proof. intro H. destruct c; [now apply agrees_pre|reflexivity]. Qed.
Lemma agrees_size p sz o l : agrees o l -> agrees (with_size p sz o) (size_acts p sz l).
Proof.
  intro H. unfold with_size, size_acts. destruct (0 <=? sz)%Z; [now apply agrees_pre|].
  destruct o as [b| |]; cbn [bind agrees] in *; cbn [forallb calm]; rewrite ?H; trivial. destruct H as [H E]. rewrite H. split; [reflexivity|].
  cbn [flat_map bytes_of]. now rewrite E, app_nil_r, prefix_put.
Qed.
Lemma agrees_list {A} (f : A -> out (list Z)) g l : (forall x, agrees (f x) (g x)) -> agrees (enc_list f l) (flat_map g l).
Proof. intro H. induction l as [|x l IH]; [exact agrees_nil|]. cbn [enc_list flat_map]. now apply agrees_app. Qed.
Lemma agrees_sl addr k xs : agrees (Ok (slVal addr k xs)) (sl_acts addr k xs).
Proof.
  unfold slVal, sl_acts. destruct xs as [|x0 xs0]; [exact agrees_nil|]. set (xs := x0 :: xs0). clearbody xs. destruct addr; [destruct k; apply agrees_emit|].
  split; [now induction xs|]. induction xs as [|x xs IH]; [reflexivity|]. cbn [map flat_map bytes_of]. now rewrite IH.
Qed.
Lemma agrees_enc : (forall t auto addr v, agrees (enc auto addr t v) (acts_of auto addr t v)) /\ (forall fs addr vs, agrees (enc_flds addr fs vs) (acts_flds addr fs vs)).
Proof.
  apply ty_flds_ind.
  - intros k auto addr v. apply agrees_emit.
  - intros k auto addr v. apply agrees_emit.
  - intros auto addr v. cbn [enc acts_of]. destruct auto; [apply agrees_cnt|]; apply agrees_emit.
  - intros n t IH auto addr v. assert (L : agrees (enc_list (enc true addr t) v) (flat_map (acts_of true addr t) v)) by (apply agrees_list; apply IH).
    destruct t; try exact L; [apply agrees_sl|]. destruct auto; [apply agrees_cnt|]; exact L.
  - intros t IH auto addr v. assert (L : agrees (enc_list (enc true true t) v) (flat_map (acts_of true true t) v)) by (apply agrees_list; apply IH).
    destruct t; (destruct auto; [apply agrees_cnt|]); try exact L; apply agrees_sl.
  - intros t IH auto addr [v|]; cbn [enc acts_of]; [apply IH|]. destruct auto; [reflexivity|exact agrees_nil].
  - intros fs IH auto addr v. apply IH.
  - intros addr vs. exact agrees_nil.
  - intros tg t IHt fs IHf addr [v vs]. cbn [enc_flds acts_flds]. apply agrees_app; [|apply IHf]. destruct (drop false tg t); [exact agrees_nil|].
    destruct tg; try apply IHt; [apply agrees_size|apply agrees_cnt]; apply IHt.
Qed.
Lemma agrees_Write t v : agrees (Write t v) (write_acts t v).
Proof.
  assert (S : forall t v, agrees (match Sz false t with None => Panic | Some _ => enc true false t v end) (match Sz false t with None => [Boom] | Some _ => acts_of true false t v end)).
  { intros t0 v0. destruct (Sz false t0); [apply agrees_enc|reflexivity]. }
  assert (C : forall c d, agrees (Ok (put c ++ put d)) [Emit c; Emit d]).
  { intros c d. exact (agrees_app _ _ _ _ (agrees_emit c) (agrees_emit d)). }
  destruct t as [k| | | |t| |]; try exact (S _ v). destruct t as [k| | | | | |]; try exact (S (TSl _) v). cbn [Write write_acts]. destruct k; apply C.
Qed.
Lemma agrees_WriteTail t v : agrees (WriteTail t v) (tail_acts t v).
Proof.
  assert (S : forall t v, agrees (match Sz false t with None => Panic | Some _ => enc false false t v end) (match Sz false t with None => [Boom] | Some _ => acts_of false false t v end)).
  { intros t0 v0. destruct (Sz false t0); [apply agrees_enc|reflexivity]. }
  destruct t as [k| | | |t| |]; try exact (S _ v). destruct t as [k| | | | | |]; try exact (S (TSl _) v). cbn [WriteTail tail_acts]. destruct k; apply agrees_emit.
Qed.
