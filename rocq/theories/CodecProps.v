(** Property theorems C18-C21, C24-C26 about the reflective codec (marshal.Write, Read, WriteTail, ReadTail). *)
From Coq Require Import ZArith List Bool Arith Lia.
Import ListNotations.
From Verif Require Import Base PrimModel PrimSpec PrimProofs PrimWriter PrimProps CodecModel CodecSpec CodecProofs CodecRead.
Open Scope Z_scope.

(** the fast paths of Write and Read agree with the reflective path *)
Lemma put_u32 {A} (v : list A) : zlen v < 2 ^ 32 -> put (IntUint32 (zlen v)) = le_enc 4 (zlen v).
Proof. intro H. exact (prefix_pre P32 (zlen v) eq_refl (zlen_nn v) H). Qed.
Lemma Write_lay t v : good t = true -> fits t v -> Write t v = Ok (lay true t v).
Proof.
  intros G F. unfold good in G. destruct (Sz false t) as [s|] eqn:Z1; [|discriminate]. destruct (Sz true t) as [s2|] eqn:Z2; [|discriminate].
  destruct (proj1 enc_ok t) as [[E _] _]. specialize (E false v G F).
  destruct t as [k|k| |n t|t|t|fs]; cbn [Write]; try (rewrite Z1; exact E).
  - exact E.
  - cbn [lay fits] in *. rewrite put_bytes, put_u32 by apply F. reflexivity.
  - destruct t as [k| | | | | |]; try (rewrite Z1; exact E). cbn [lay fits] in *. destruct F as [L F]. f_equal. f_equal; [now apply put_u32|].
    change (flat_map (lay true (TNum k)) v) with (flat_map (layout k) v). cbn in G.
    assert (W : put (WSlice k v) = flat_map (layout k) v) by (rewrite put_ok by exact I; now apply flat_layout).
    destruct k; try exact W; [|discriminate]. rewrite put_bytes. symmetry. now apply bytes_u8.
Qed.
Lemma call_u32 n b al : 0 <= n < 2 ^ 32 -> call (RFixed U32) (st0 (le_enc 4 n ++ b) al) = Ok (VNum n, st0 b al).
Proof.
  intro H. replace (le_enc 4 n) with (layout U32 n) by (unfold layout; destruct (Z.ltb_spec n 0); [lia|reflexivity]).
  apply call_fixed. unfold kind_ok. cbn. lia.
Qed.
Lemma call_bulk k xs l rest al : Forall (kind_ok k) xs -> length l = length xs ->
  call (RBulk k l) (st0 (flat_map (layout k) xs ++ rest) al) = Ok (VNums xs, st0 rest al).
Proof.
  intros F L. unfold call, st0. cbn [s_rd s_alloc r_call r_err r_body]. rewrite app_length, flat_len, L.
  destruct (Nat.ltb_spec (length xs * width k + length rest) (length xs * width k)); [lia|].
  destruct (dec_bulk k rest xs F) as [-> ->]. reflexivity.
Qed.
Lemma make_slice_ok t n b al : 0 <= n -> make_slice t n (st0 b al) = Ok (repeat (zero t) (Z.to_nat n), st0 b (al ++ [n])).
Proof. intro H. unfold make_slice. destruct (Z.ltb_spec n 0); [lia|reflexivity]. Qed.
Lemma Read_lay t v old rest : good t = true -> fits t v -> shaped t old -> Dec (same t) (Read t) v old (lay true t v) rest.
Proof.
  intros G F S. unfold good in G. destruct (Sz false t) as [s|] eqn:Z1; [|discriminate]. destruct (Sz true t) as [s2|] eqn:Z2; [|discriminate].
  destruct (proj1 dec_ok t) as [(D & _ & _) _]. specialize (D false v old rest G F S).
  destruct t as [k|k| |n t|t|t|fs]; cbn [Read].
  - exact D.
  - rewrite Z2. exact D.
  - intro al. exists v, al. split; [|reflexivity]. cbn [lay fits] in *. destruct F as [F L]. rewrite <- app_assoc. cbn [failed st0 s_rd r_err]. fold (st0 (le_enc 4 (zlen v) ++ v ++ rest) al).
    rewrite call_u32 by (split; [apply zlen_nn|exact L]). cbn [bind failed st0 s_rd r_err num]. apply take_ok.
  - rewrite Z2. exact D.
  - destruct t as [k| | | | | |]; try (rewrite Z2; exact D). destruct F as [L F]. cbn in G.
    change (lay true (TSl (TNum k)) v) with (le_enc 4 (zlen v) ++ flat_map (layout k) v).
    assert (W : forall al, exists v' al',
      (if failed (st0 ((le_enc 4 (zlen v) ++ flat_map (layout k) v) ++ rest) al) then Ok (old, st0 ((le_enc 4 (zlen v) ++ flat_map (layout k) v) ++ rest) al)
       else do! (c, s) <- call (RFixed U32) (st0 ((le_enc 4 (zlen v) ++ flat_map (layout k) v) ++ rest) al);
            if failed s then Ok (old, s)
            else do! (l, s) <- make_slice (TNum k) (num c) s; do! (v, s) <- call (RBulk k l) s; Ok (nums v, s)) = Ok (v', st0 rest al') /\ same (TSl (TNum k)) v v').
    { intro al. exists v, (al ++ [zlen v]). split; [|apply Forall2_eq_refl]. rewrite <- app_assoc. cbn [failed st0 s_rd r_err].
      fold (st0 (le_enc 4 (zlen v) ++ flat_map (layout k) v ++ rest) al). rewrite call_u32 by (split; [apply zlen_nn|exact L]). cbn [bind failed st0 s_rd r_err num].
      fold (st0 (flat_map (layout k) v ++ rest) al). rewrite make_slice_ok by apply zlen_nn. cbn [bind].
      rewrite call_bulk; [reflexivity|exact F|]. rewrite repeat_length. exact (Nat2Z.id _). }
    destruct k; try exact W.
    intro al. exists v, al. split; [|apply Forall2_eq_refl]. rewrite bytes_u8 by exact F. rewrite <- app_assoc. cbn [failed st0 s_rd r_err]. fold (st0 (le_enc 4 (zlen v) ++ v ++ rest) al).
    rewrite call_u32 by (split; [apply zlen_nn|exact L]). cbn [bind failed st0 s_rd r_err num]. apply take_ok.
  - discriminate.
  - rewrite Z2. exact D.
Qed.

(** ** C18: Read inverts Write *)
Theorem C18_read_inverts_write_partial : forall t v old rest al, good t = true -> fits t v -> shaped t old ->
  exists b v' al', Write t v = Ok b /\ Read t old (st0 (b ++ rest) al) = Ok (v', st0 rest al') /\ same t v v' /\
    (no_skip t = true -> v' = v).
Proof.
  intros t v old rest al G F S. exists (lay true t v). destruct (Read_lay t v old rest G F S al) as (v' & al' & E & R).
  exists v', al'. split; [now apply Write_lay|split; [exact E|split; [exact R|]]]. intro N. symmetry. now apply (proj1 same_eq t).
Qed.
(** types outside the class for which it fails, each with a value *)
Definition rt (t : ty) (v : val t) : option (val t * list Z * bool) :=
  match Write t v with
  | Ok b => match Read t (zero t) (st0 b []) with Ok (x, s) => Some (x, r_body (s_rd s), failed s) | _ => None end
  | _ => None
  end.
(** struct{ A [2]uint32 `ber` }{[1 2]}: silently another value, and two bytes left *)
Definition T_berarr := TStruct (FCons TgAuto (TArr 2 (TVar U32)) FNil).
(** struct{ A struct{X uint8; S string} }{{7 "a"}}: the field is silently dropped *)
Definition T_inner := TStruct (FCons TgAuto (TNum U8) (FCons TgAuto TStr FNil)).
Definition T_dropped := TStruct (FCons TgAuto T_inner FNil).
Theorem C18_ber_array_refuted : fits T_berarr ([1; 2], tt) /\ exists x rest, rt T_berarr ([1; 2], tt) = Some (x, rest, false) /\ x <> ([1; 2], tt) /\ rest <> [].
Proof. split; [cbn; repeat (constructor; try lia)|]. eexists _, _. split; [vm_compute; reflexivity|split; discriminate]. Qed.
Theorem C18_dropped_field_refuted : fits T_dropped ((7, ([97], tt)), tt) /\ Write T_dropped ((7, ([97], tt)), tt) = Ok [] /\
  exists x, rt T_dropped ((7, ([97], tt)), tt) = Some (x, [], false) /\ x <> ((7, ([97], tt)), tt).
Proof.
  split; [cbn; repeat split; repeat constructor; cbn; try lia|]. split; [vm_compute; reflexivity|].
  eexists. split; [vm_compute; reflexivity|discriminate].
Qed.
(** [][2]float64: the elements are addressable, so Float64sl is used *)
Theorem C18_float64_slice_refuted : let t := TSl (TArr 2 (TNum F64)) in let v := [[4607182418800017408; 4611686018427387904]] in
  fits t v /\ exists x, rt t v = Some (x, [], false) /\ x <> v.
Proof.
  cbv zeta. split.
  - split; [reflexivity|]. constructor; [|constructor]. split; [reflexivity|]. constructor; [split; vm_compute; congruence|]. constructor; [split; vm_compute; congruence|constructor].
  - eexists. split; [vm_compute; reflexivity|discriminate].
Qed.
(** an untagged nil pointer panics in Write *)
Theorem C18_nil_pointer_refuted : Write (TStruct (FCons TgAuto (TPtr (TNum U32)) FNil)) (None, tt) = Panic.
Proof. reflexivity. Qed.
(** the types of marshal_test.go are in the class: SArr1, SSlice1, SStruct1 (without interfaces) *)
Definition T_SArr1 := TStruct (FCons TgAuto (TArr 2 (TNum U32)) (FCons (TgSize PBer) (TArr 2 (TNum U32)) (FCons (TgSize P16) (TArr 2 (TNum U32))
  (FCons (TgCnt PBer) (TArr 2 (TNum U32)) (FCons (TgCnt P16) (TArr 2 (TNum U32)) (FCons (TgSize PBer) (TArr 2 (TVar U32)) (FCons (TgCnt PBer) (TArr 2 (TVar U32)) FNil))))))).
Definition T_SSlice1 := TStruct (FCons TgAuto (TSl (TNum U32)) (FCons (TgSize PBer) (TSl (TNum U32)) (FCons (TgSize P16) (TSl (TNum U32))
  (FCons (TgCnt PBer) (TSl (TNum U32)) (FCons (TgCnt P16) (TSl (TNum U32)) (FCons (TgSize PBer) (TSl (TVar U32)) (FCons (TgCnt PBer) (TSl (TVar U32)) FNil))))))).
Definition T_SStruct1 := TStruct (FCons (TgCnt PBer) (TStruct (FCons TgAuto (TNum I32) (FCons TgAuto (TNum I16) FNil)))
  (FCons (TgCnt P16) (TSl (TStruct (FCons TgAuto (TNum I16) (FCons TgAuto (TNum I32) FNil)))) FNil)).
(** nested sizes, optional pointers, a size(no) tail inside a sized struct, skipped fields *)
Definition T_nest := TStruct (FCons (TgSize P16) (TStruct (FCons TgSkip (TNum U8) (FCons TgAuto TStr (FCons TgNo (TSl TStr) FNil))))
  (FCons (TgSize P8) (TPtr (TNum F64)) (FCons TgAuto (TSl (TSl (TNum U16))) FNil))).
Example C18_ex_class : map good [T_SArr1; T_SSlice1; T_SStruct1; T_nest; TArr 3 (TNum F64); TSl TStr] = repeat true 6. Proof. reflexivity. Qed.
Example C18_ex_val : let v := ((9, ([97], ([[98]; []], tt))), (Some 5, ([[1; 2]; []], tt))) in
  fits T_nest v /\ rt T_nest v = Some (((0, ([97], ([[98]; []], tt))), (Some 5, ([[1; 2]; []], tt))), [], false).
Proof.
  cbv zeta. split; [|vm_compute; reflexivity]. unfold T_nest. cbn [fits fits_flds]. cbv [pfits ber_sizes_right].
  repeat match goal with
  | |- _ /\ _ => split
  | |- Forall _ [] => constructor
  | |- Forall _ (_ :: _) => constructor
  | |- bytes_ok _ => unfold bytes_ok
  | |- kind_ok _ _ => split; vm_compute; congruence
  | |- True => exact I
  | |- byte_ok _ => unfold byte_ok; lia
  | |- _ < _ => vm_compute; reflexivity
  end.
Qed.
Print Assumptions C18_read_inverts_write_partial.

(** ** C19: the documented layout *)
Theorem C19_write_follows_the_layout_partial : forall t v, good t = true -> fits t v -> Write t v = Ok (lay true t v).
Proof. exact Write_lay. Qed.
Theorem C19_float64_slice_refuted : let v := [4607182418800017408; 4611686018427387904] in
  fits (TSl (TNum F64)) v /\ Write (TSl (TNum F64)) v <> Ok (lay true (TSl (TNum F64)) v).
Proof.
  cbv zeta. split; [split; [reflexivity|constructor; [split; vm_compute; congruence|constructor; [split; vm_compute; congruence|constructor]]]|].
  vm_compute. discriminate.
Qed.
Theorem C19_i64_prefix_refuted : let t := TStruct (FCons (TgCnt P64) (TSl (TNum U8)) FNil) in
  fits t ([1], tt) /\ Write t ([1], tt) <> Ok (lay true t ([1], tt)).
Proof. cbv zeta. split; [cbn; repeat split; repeat constructor; cbn; lia|vm_compute; discriminate]. Qed.
Example C19_ex : lay true T_SStruct1 ((-1, (2, tt)), ([(3, (4, tt))], tt)) = [1; 255; 255; 255; 255; 2; 0; 1; 0; 3; 0; 4; 0; 0; 0]. Proof. reflexivity. Qed.
Print Assumptions C19_write_follows_the_layout_partial.

(** ** C20: a size() prefix is the number of bytes that follow *)
Lemma WriteTail_lay t v : Sz false t <> None -> goodA false t || goodT false t = true -> fits t v -> WriteTail t v = Ok (lay false t v).
Proof.
  intros Z1 G F. destruct (proj1 enc_ok t) as [[_ E] _]. specialize (E false v G F). destruct (Sz false t) as [s|] eqn:Z2; [|easy].
  destruct t as [k|k| |n t|t|t|fs]; cbn [WriteTail]; try (rewrite Z2; exact E); try exact E.
  destruct t as [k| | | | | |]; try (rewrite Z2; exact E). destruct F as [L F]. f_equal.
  change (lay false (TSl (TNum k)) v) with (flat_map (layout k) v).
  assert (W : put (WSlice k v) = flat_map (layout k) v) by (rewrite put_ok by exact I; now apply flat_layout).
  destruct k; try exact W; [|discriminate G]. rewrite put_bytes. symmetry. now apply bytes_u8.
Qed.
Lemma ptr_tail t v : Sz false t <> None -> goodA true t = true -> fits (TPtr t) v -> WriteTail (TPtr t) v = Ok (lay false (TPtr t) v).
Proof.
  intros Z G F. cbn [WriteTail]. assert (Sz false (TPtr t) <> None) by (cbn; destruct (Sz false t); easy). destruct (Sz false (TPtr t)); [|easy].
  destruct v as [v|]; [|reflexivity]. cbn [enc lay]. destruct (proj1 enc_ok t) as [[_ E] _]. apply E; [now rewrite G|exact F].
Qed.
(** the content of a sized field, written on its own by WriteTail, is [body] *)
Theorem C20_size_prefix_exact_partial : forall p t v, good (TStruct (FCons (TgSize p) t FNil)) = true -> fits (TStruct (FCons (TgSize p) t FNil)) (v, tt) ->
  exists body, WriteTail t v = Ok body /\ Write (TStruct (FCons (TgSize p) t FNil)) (v, tt) = Ok (pre p (zlen body) ++ body).
Proof.
  intros p t v G F. exists (lay false t v). split.
  2:{ rewrite Write_lay by assumption. cbn [lay lays]. now rewrite app_nil_r. }
  unfold good in G. destruct (Sz false (TStruct (FCons (TgSize p) t FNil))) as [s|] eqn:Z1; [|discriminate].
  destruct (Sz true (TStruct (FCons (TgSize p) t FNil))) as [s2|] eqn:Z2; [|discriminate].
  assert (Zt : Sz false t <> None) by (cbn [Sz Szs] in Z1; destruct (Sz false t); easy).
  change (goodF false false (FCons (TgSize p) t FNil) = true) in G. rewrite goodF_cons in G. bools.
  destruct F as [(F & _ & _) _]. destruct t as [k|k| |n t|t|t|gs]; cbn [size_ok] in H1.
  6: { bools. apply ptr_tail; [|assumption|exact F]. cbn in Zt. destruct (Sz false t); easy. }
  all: apply WriteTail_lay; [exact Zt| |exact F].
  - reflexivity.
  - now rewrite H1.
  - reflexivity.
  - destruct t; bools; try (now rewrite H1). cbn. exact H1.
  - apply orb_true_intro. left. cbn [goodA]. destruct t as [k| | | | | |]; cbn [elem_ok]; bools; try assumption; destruct k; try discriminate; reflexivity.
  - bools. destruct (sz0 true (TStruct gs) <? 0); cbn [goodT goodA]; rewrite H1; [apply orb_true_r|reflexivity].
Qed.
(** struct{ A uint32 `size(i32),ber` }{128}: prefix 1, two bytes follow *)
Theorem C20_ber_128_refuted : let t := TStruct (FCons (TgSize P32) (TVar U32) FNil) in
  Write t (128, tt) = Ok [1; 0; 0; 0; 129; 0] /\ WriteTail (TVar U32) 128 = Ok [129; 0].
Proof. split; reflexivity. Qed.
(** struct{ A struct{X uint32; S string} `size(i8)` }: the prefix is 3 whatever the string *)
Theorem C20_struct_with_string_refuted : let t := TStruct (FCons TgAuto (TNum U32) (FCons TgAuto TStr FNil)) in forall s, zlen s < 2 ^ 32 ->
  exists rest, Write (TStruct (FCons (TgSize P8) t FNil)) ((0, (s, tt)), tt) = Ok (3 :: rest) /\ zlen rest = 8 + zlen s.
Proof.
  cbv zeta. intros s L. exists ([0; 0; 0; 0] ++ le_enc 4 (zlen s) ++ s). split.
  - change (Write _ _) with (bind (with_size P8 3 (do! a <- with_count P32 (Some (zlen s)) (Ok (put (WBytes s))); do! b <- (do! b <- Ok []; Ok (a ++ b)); Ok ([0; 0; 0; 0] ++ b))) (fun a => Ok (a ++ []))).
    rewrite put_bytes, (count32 s s L). cbn [bind with_size Z.leb Z.compare]. rewrite !app_nil_r. reflexivity.
  - rewrite !zlen_app. unfold zlen at 1 2. rewrite le_enc_length. cbn [length]. lia.
Qed.
(** struct{ A struct{X []uint8 `cnt(i8)`...}}: cnt(i8) is counted as two bytes *)
Theorem C20_cnt_i8_refuted : let t := TStruct (FCons (TgCnt P8) (TArr 2 (TNum U8)) FNil) in
  Write (TStruct (FCons (TgSize P8) t FNil)) (([5; 6], tt), tt) = Ok [4; 2; 5; 6].
Proof. reflexivity. Qed.
Example C20_ex : good (TStruct (FCons (TgSize PBer) (TSl TStr) FNil)) = true /\
  Write (TStruct (FCons (TgSize PBer) (TSl TStr) FNil)) ([[1]; []], tt) = Ok [9; 1; 0; 0; 0; 1; 0; 0; 0; 0]. Proof. split; reflexivity. Qed.
Print Assumptions C20_size_prefix_exact_partial.

(** ** C21: i64 prefixes *)
Lemma le_enc_split m : forall n b x, 0 <= b < 256 ^ Z.of_nat n -> le_enc (n + m) (b + 256 ^ Z.of_nat n * x) = le_enc n b ++ le_enc m x.
Proof.
  induction n as [|n IH]; intros b x H.
  - change (256 ^ Z.of_nat 0) with 1 in *. cbn [Nat.add le_enc app]. f_equal. lia.
  - rewrite Nat2Z.inj_succ, Z.pow_succ_r in * by lia. cbn [Nat.add le_enc app].
    assert (E : b + 256 * 256 ^ Z.of_nat n * x = b + (256 ^ Z.of_nat n * x) * 256) by ring.
    rewrite E, Z.mod_add, Z.div_add by lia. f_equal. apply IH. split; [apply Z.div_pos; lia|apply Z.div_lt_upper_bound; lia].
Qed.
(** struct{ A uint32 `size(i64)` } never reads back what was written *)
Theorem C21_i64_prefix_refuted : let t := TStruct (FCons (TgSize P64) (TNum U32) FNil) in forall x, 0 <= x < 2 ^ 32 ->
  Write t (x, tt) = Ok (le_enc 4 4 ++ le_enc 4 x) /\
  exists r s, Read t (zero t) (st0 (le_enc 4 4 ++ le_enc 4 x) []) = Ok (r, s) /\ failed s = true.
Proof.
  cbv zeta. intros x H. split.
  - change (Write _ _) with (bind (with_size P64 4 (Ok (put (WFixed U32 x)))) (fun a => Ok (a ++ []))). cbn [with_size Z.leb Z.compare bind].
    rewrite put_fixed by (unfold kind_ok; cbn; lia). unfold layout. destruct (Z.ltb_spec x 0); [lia|]. rewrite app_nil_r. reflexivity.
  - assert (C : call (RFixed U64) (st0 (le_enc 4 4 ++ le_enc 4 x) []) = Ok (VNum (4 + 2 ^ 32 * x), st0 [] [])).
    { assert (E : le_enc 4 4 ++ le_enc 4 x = layout U64 (4 + 2 ^ 32 * x) ++ []).
      { rewrite app_nil_r. unfold layout. destruct (Z.ltb_spec (4 + 2 ^ 32 * x) 0); [lia|]. cbn [width].
        symmetry. exact (le_enc_split 4 4 4 x ltac:(cbn; lia)). }
      rewrite E. rewrite call_fixed; [reflexivity|]. unfold kind_ok. cbn [signed width]. change (256 ^ Z.of_nat 8) with (2 ^ 64). lia. }
    set (s0 := st0 (le_enc 4 4 ++ le_enc 4 x) []) in *.
    assert (U : Read (TStruct (FCons (TgSize P64) (TNum U32) FNil)) (zero (TStruct (FCons (TgSize P64) (TNum U32) FNil))) s0 =
      bind (dec_with_size (dec Fixed (TNum U32)) (dec Tail (TNum U32)) P64 0 s0) (fun '(x, s) => Ok ((x, tt), s))) by reflexivity.
    rewrite U. unfold dec_with_size. change (failed s0) with false. cbv iota. cbn [rprefix]. rewrite C. cbn [bind num].
    cbn [set_size sz0 Sz width Z.of_nat Pos.of_succ_nat Pos.succ Z.leb Z.compare bind].
    destruct (to_int (4 + 2 ^ 32 * x) =? 4).
    + eexists _, _. split; [reflexivity|reflexivity].
    + eexists _, _. split; [reflexivity|reflexivity].
Qed.
(** with any other prefix the same field reads back *)
Theorem C21_other_prefixes_partial : forall p k x rest al, not_i64 p = true -> kind_ok k x -> let t := TStruct (FCons (TgSize p) (TNum k) FNil) in
  exists b al', Write t (x, tt) = Ok b /\ Read t (zero t) (st0 (b ++ rest) al) = Ok ((x, tt), st0 rest al').
Proof.
  intros p k x rest al N K t.
  assert (G : good t = true) by (unfold t, good; destruct p, k; try discriminate N; reflexivity).
  assert (F : fits t (x, tt)).
  { cbn. split; [|exact I]. split; [exact K|]. split; [|exact I]. unfold layout, zlen. rewrite le_enc_length. destruct p, k; try discriminate N; cbn; lia. }
  destruct (C18_read_inverts_write_partial t (x, tt) (zero t) rest al G F (proj1 zero_shaped t)) as (b & v' & al' & W & R & _ & E).
  exists b, al'. split; [exact W|]. now rewrite <- (E eq_refl).
Qed.
Example C21_ex : not_i64 P16 = true /\ kind_ok I16 (-3). Proof. split; [reflexivity|split; vm_compute; congruence]. Qed.
Print Assumptions C21_i64_prefix_refuted. Print Assumptions C21_other_prefixes_partial.

(** ** C24: a size mismatch is an error *)
(** ReadWithSize: no error, the variable keeps its old value *)
Theorem C24_mismatch_ignored_refuted : forall k old sz b al, 0 <= sz < 256 -> sz <> Z.of_nat (width k) ->
  ReadWithSize_num k P8 old (st0 (sz :: b) al) = Ok (old, st0 b al).
Proof.
  intros k old sz b al H N. unfold ReadWithSize_num. cbn [failed st0 s_rd r_err rprefix].
  assert (E : sz :: b = pre P8 sz ++ b) by (cbn; now rewrite Z.mod_small).
  rewrite E. fold (st0 (pre P8 sz ++ b) al). pose proof (rprefix_ok P8 sz b al eq_refl (proj1 H) ltac:(cbn; lia)) as R. cbn [rprefix] in R. rewrite R. cbn [bind].
  destruct (Z.eqb_spec sz (Z.of_nat (width k))); [easy|reflexivity].
Qed.
(** tagged fields and ReadValueWithSize: every type of constant size, not a pointer *)
Theorem C24_mismatch_is_an_error_partial : forall t fixed tail p old s sz s', match t with TPtr _ | TSl _ => False | _ => True end -> 0 <= sz0 true t ->
  is_bytes t = false -> failed s = false -> rprefix p s = Ok (sz, s') -> sz <> sz0 true t ->
  exists x s'', @dec_with_size t fixed tail p old s = Ok (x, s'') /\ failed s'' = true /\ r_body (s_rd s'') = r_body (s_rd s').
Proof.
  intros t fixed tail p old s sz s' P Z B F R N. unfold dec_with_size. rewrite F, R. cbn [bind]. rewrite set_size_plain by exact P.
  destruct (Z.leb_spec 0 (sz0 true t)); [|lia]. destruct (Z.eqb_spec sz (sz0 true t)); [easy|]. cbn [bind]. eexists _, _. split; [reflexivity|split; reflexivity].
Qed.
(** and the right size reads the value *)
Theorem C24_right_size_reads_partial : forall k p x old rest al, not_i64 p = true -> kind_ok k x ->
  ReadWithSize_num k p old (st0 (pre p (Z.of_nat (width k)) ++ layout k x ++ rest) al) = Ok (x, st0 rest al).
Proof.
  intros k p x old rest al N K. unfold ReadWithSize_num. cbn [failed st0 s_rd r_err]. fold (st0 (pre p (Z.of_nat (width k)) ++ layout k x ++ rest) al).
  rewrite rprefix_ok; [|exact N|lia|destruct p, k; cbn; lia]. cbn [bind]. rewrite Z.eqb_refl, call_fixed by exact K. reflexivity.
Qed.
Example C24_ex : exists x s'', dec_with_size (dec Fixed (TArr 3 (TNum U16))) (dec Tail (TArr 3 (TNum U16))) P8 [0; 0; 0] (st0 [5; 1; 2; 3; 4; 5; 6] []) = Ok (x, s'') /\
  failed s'' = true /\ sz0 true (TArr 3 (TNum U16)) = 6.
Proof. eexists _, _. split; [vm_compute; reflexivity|split; reflexivity]. Qed.
Print Assumptions C24_mismatch_ignored_refuted. Print Assumptions C24_mismatch_is_an_error_partial. Print Assumptions C24_right_size_reads_partial.

(** ** C25: WriteTail and ReadTail *)
Lemma bulk_tail k : (match k with U8 => false | _ => true end) = true ->
  ReadTail (TSl (TNum k)) = fun old s => if failed s then Ok (old, s) else
    do! (x, s) <- (do! (l, s) <- make_slice (TNum k) (zlen (r_body (s_rd s)) / Z.of_nat (width k)) s; do! (v, s) <- call (RBulk k l) s; Ok (nums v, s));
    if zlen (r_body (s_rd s)) =? 0 then Ok (x, s) else Ok (x, fail s (ECodec 4)).
Proof. intros H. destruct k; try discriminate H; reflexivity. Qed.
Theorem C25_number_slices_partial : forall k xs old al, k <> F64 -> zlen xs < 2 ^ 32 -> Forall (kind_ok k) xs ->
  exists b al', WriteTail (TSl (TNum k)) xs = Ok b /\ b = flat_map (layout k) xs /\ ReadTail (TSl (TNum k)) old (st0 b al) = Ok (xs, st0 [] al').
Proof.
  intros k xs old al N L F. exists (flat_map (layout k) xs).
  assert (W : WriteTail (TSl (TNum k)) xs = Ok (flat_map (layout k) xs)).
  { apply (WriteTail_lay (TSl (TNum k)) xs); [discriminate| |split; assumption]. destruct k; try reflexivity. easy. }
  destruct (match k with U8 => false | _ => true end) eqn:K.
  - exists (al ++ [zlen xs]). split; [exact W|split; [reflexivity|]]. rewrite bulk_tail by exact K. cbn [failed st0 s_rd r_err r_body].
    assert (LEN : zlen (flat_map (layout k) xs) = zlen xs * Z.of_nat (width k)) by (unfold zlen; rewrite flat_len; lia).
    pose proof (width_pos k). rewrite LEN, Z.div_mul by lia. fold (st0 (flat_map (layout k) xs) al). rewrite make_slice_ok by apply zlen_nn. cbn [bind].
    pose proof (call_bulk k xs (repeat (zero (TNum k)) (Z.to_nat (zlen xs))) [] (al ++ [zlen xs])) as CB. rewrite app_nil_r in CB.
    rewrite CB; [reflexivity|exact F|rewrite repeat_length; exact (Nat2Z.id _)].
  - destruct k; try discriminate K. exists al. split; [exact W|split; [reflexivity|]]. rewrite bytes_u8 by exact F. reflexivity.
Qed.
(** every other type that may end a message: strings, arrays, structs (last field possibly size(no)) and
    slices of anything that takes at least one byte *)
Theorem C25_structured_tail_partial : forall t v old al, is_bytes t = false -> Sz false t <> None -> Sz true t <> None -> goodT false t = true ->
  fits t v -> shaped t old -> exists b v' al', WriteTail t v = Ok b /\ ReadTail t old (st0 b al) = Ok (v', st0 [] al') /\ same t v v'.
Proof.
  intros t v old al NB Z1 Z2 G F S. exists (lay false t v). destruct (proj1 dec_ok t) as [(_ & _ & D) _].
  destruct (D false v old G F S al) as (v' & al' & E & R). rewrite app_nil_r in E. exists v', al'.
  split; [apply WriteTail_lay; [exact Z1|rewrite G; apply orb_true_r|exact F]|split; [|exact R]].
  unfold ReadTail. cbn [failed st0 s_rd r_err]. fold (st0 (lay false t v) al).
  assert (U : forall old s, match t return val t -> st -> out (val t * st) with
      | TSl t =>
          match t return list (val t) -> st -> out (list (val t) * st) with
          | TNum U8 => fun old s => do! (v, s) <- call RTail s; Ok (nums v, s)
          | TNum k => fun old s =>
              do! (l, s) <- make_slice (TNum k) (zlen (r_body (s_rd s)) / Z.of_nat (width k)) s;
              do! (v, s) <- call (RBulk k l) s; Ok (nums v, s)
          | t => fun old s => match Sz true (TSl t) with None => Panic | Some _ => dec Tail (TSl t) old s end
          end
      | t => fun old s => match Sz true t with None => Panic | Some _ => dec Tail t old s end
      end old s = dec Tail t old s).
  { destruct (Sz true t) as [z|] eqn:Q; [|easy]. intros o s. destruct t as [k|k| |n t|t|t|fs]; cbv zeta; try (rewrite Q; reflexivity).
    destruct t as [k| | | | | |]; try (rewrite Q; reflexivity). destruct k; discriminate. }
  cbv zeta. rewrite U, E. reflexivity.
Qed.
(** leftover bytes are an error *)
Theorem C25_leftover_is_an_error : forall k b old al, zlen b mod Z.of_nat (width k) <> 0 ->
  exists x s, ReadTail (TSl (TNum k)) old (st0 b al) = Ok (x, s) /\ failed s = true.
Proof.
  intros k b old al N. assert (K : match k with U8 => false | _ => true end = true) by (destruct k; try reflexivity; cbn in N; rewrite Z.mod_1_r in N; easy).
  rewrite (bulk_tail k K). cbn [failed st0 s_rd r_err r_body]. pose proof (width_pos k) as W. pose proof (zlen_nn b) as Lb.
  assert (Q : 0 <= zlen b / Z.of_nat (width k)) by (apply Z.div_pos; lia). fold (st0 b al). rewrite make_slice_ok by exact Q. cbn [bind].
  set (n := Z.to_nat (zlen b / Z.of_nat (width k))).
  assert (M : zlen b = Z.of_nat (n * width k) + zlen b mod Z.of_nat (width k)).
  { unfold n. rewrite Nat2Z.inj_mul, Z2Nat.id by lia. rewrite (Z.mul_comm (zlen b / _)). apply Z.div_mod. lia. }
  pose proof (Z.mod_pos_bound (zlen b) (Z.of_nat (width k)) ltac:(lia)) as MB.
  assert (CB : forall l al, length l = n -> exists x s, (do! (v, s) <- call (RBulk k l) (st0 b al); Ok (nums v, s)) = Ok (x, s) /\ zlen (r_body (s_rd s)) <> 0).
  { intros l al' L. unfold call. cbn [st0 s_rd s_alloc r_call r_err r_body]. rewrite L.
    destruct (Nat.ltb_spec (length b) (n * width k)) as [B|B]; [unfold zlen in *; lia|]. eexists _, _. split; [reflexivity|]. cbn [s_rd r_body].
    unfold zlen in *. rewrite skipn_length. lia. }
  destruct (CB (repeat (zero (TNum k)) n) (al ++ [zlen b / Z.of_nat (width k)])) as (x & s & E & N2); [apply repeat_length|].
  rewrite E. cbn [bind]. destruct (Z.eqb_spec (zlen (r_body (s_rd s))) 0); [easy|]. eexists _, _. split; [reflexivity|reflexivity].
Qed.
Theorem C25_float64_refuted : exists xs b x s, Forall (kind_ok F64) xs /\ WriteTail (TSl (TNum F64)) xs = Ok b /\
  ReadTail (TSl (TNum F64)) [] (st0 b []) = Ok (x, s) /\ failed s = false /\ x <> xs.
Proof.
  exists [4607182418800017408; 4611686018427387904]. eexists _, _, _. split; [constructor; [split; vm_compute; congruence|constructor; [split; vm_compute; congruence|constructor]]|].
  split; [vm_compute; reflexivity|split; [vm_compute; reflexivity|split; [reflexivity|discriminate]]].
Qed.
(** struct{ A []uint16 `size(no)` }: ReadTail panics *)
Theorem C25_tail_field_refuted : let t := TStruct (FCons TgNo (TSl (TNum U16)) FNil) in
  WriteTail t ([1], tt) = Ok [1; 0] /\ ReadTail t (zero t) (st0 [1; 0] []) = Panic.
Proof. split; reflexivity. Qed.
Example C25_ex : goodT false (TSl TStr) = true /\ WriteTail (TSl TStr) [[7]; []] = Ok [1; 0; 0; 0; 7; 0; 0; 0; 0] /\
  ReadTail (TSl TStr) [] (st0 [1; 0; 0; 0; 7; 0; 0; 0; 0] []) = Ok ([[7]; []], st0 [] []) /\
  zlen [1; 2; 3] mod Z.of_nat (width U16) <> 0.
Proof. repeat split. discriminate. Qed.
Print Assumptions C25_number_slices_partial. Print Assumptions C25_structured_tail_partial. Print Assumptions C25_leftover_is_an_error.

(** ** C26: allocation *)
(** the contents of a string or []byte *)
Definition bytes_of (t : ty) : val t -> list Z :=
  match t return val t -> list Z with
  | TStr => fun v => v
  | TSl t => match t return list (val t) -> list Z with TNum _ => fun v => v | _ => fun _ => [] end
  | _ => fun _ => []
  end.
Lemma call_bulk_alloc k l s : exists y s', call (RBulk k l) s = Ok (y, s') /\ s_alloc s' = s_alloc s.
Proof.
  unfold call. destruct s as [[b e] al]. cbn [s_rd s_alloc r_call r_err r_body]. destruct e; [eexists _, _; split; reflexivity|].
  unfold r_call. cbn [r_err r_body]. destruct (Nat.ltb (length b) (length l * width k)); eexists _, _; split; reflexivity.
Qed.
(** a four-byte message makes Read allocate 2^32-1 elements *)
Theorem C26_allocation_unbounded_refuted : forall k n, k <> U8 -> 0 <= n < 2 ^ 32 ->
  exists x s, Read (TSl (TNum k)) [] (st0 (le_enc 4 n) []) = Ok (x, s) /\ s_alloc s = [n].
Proof.
  intros k n N H.
  assert (U : Read (TSl (TNum k)) [] (st0 (le_enc 4 n) []) =
    do! (c, s) <- call (RFixed U32) (st0 (le_enc 4 n) []); if failed s then Ok ([], s)
    else do! (l, s) <- make_slice (TNum k) (num c) s; do! (v, s) <- call (RBulk k l) s; Ok (nums v, s)) by (destruct k; try reflexivity; easy).
  rewrite U. pose proof (call_u32 n [] [] H) as C. rewrite app_nil_r in C. rewrite C. cbn [bind failed st0 s_rd r_err num].
  fold (st0 [] []). rewrite make_slice_ok by lia. cbn [bind app].
  destruct (call_bulk_alloc k (repeat (zero (TNum k)) (Z.to_nat n)) (st0 [] [n])) as (y & s & E & A). rewrite E. cbn [bind]. exists (nums y), s. split; [reflexivity|exact A].
Qed.
(** strings and []byte: no slice is made at all; the result is a part of the input that was checked to be there *)
Theorem C26_bytes_within_input_partial : forall t b old al x s, is_bytes t = true -> bytes_ok b ->
  Read t old (st0 b al) = Ok (x, s) ->
  s_alloc s = al /\ (failed s = false -> exists cnt, length cnt = 4%nat /\ b = cnt ++ bytes_of t x ++ r_body (s_rd s) /\ zlen (bytes_of t x) = le_dec cnt).
Proof.
  intros t b old al x s B OK E.
  assert (U : forall (o : list Z) y, (do! (c, s) <- call (RFixed U32) (st0 b al); if failed s then Ok (o, s) else take (num c) s) = Ok (y, s) ->
    s_alloc s = al /\ (failed s = false -> exists cnt, length cnt = 4%nat /\ b = cnt ++ y ++ r_body (s_rd s) /\ zlen y = le_dec cnt)).
  { clear E. intros o y E. unfold call, st0 in E. cbn [s_rd s_alloc r_call r_err r_body width] in E.
    destruct (Nat.ltb_spec (length b) 4) as [L|L]; cbn [bind failed s_rd r_err num] in E.
    - injection E as <- <-. split; [reflexivity|discriminate].
    - set (cnt := firstn 4 b) in *. set (r := skipn 4 b) in *.
      assert (Bb : b = cnt ++ r) by (symmetry; apply firstn_skipn). assert (Lc : length cnt = 4%nat) by (unfold cnt; rewrite firstn_length; lia).
      assert (O : of_bits U32 (le_dec cnt) = le_dec cnt) by reflexivity. rewrite O in E.
      assert (R : 0 <= le_dec cnt) by (apply le_dec_range; unfold cnt; now apply Forall_firstn').
      unfold take, call in E. cbn [s_rd s_alloc r_call r_err r_body] in E.
      destruct (Z.ltb_spec (Z.of_nat (length r)) (le_dec cnt)) as [L2|L2]; cbn [bind] in E.
      + injection E as <- <-. split; [reflexivity|discriminate].
      + destruct (Z.ltb_spec (le_dec cnt) 0); [lia|]. cbn [bind nums] in E. injection E as <- <-. split; [reflexivity|]. intros _. exists cnt.
        split; [exact Lc|split].
        * cbn [s_rd r_body]. rewrite firstn_skipn. exact Bb.
        * unfold zlen. rewrite firstn_length. lia. }
  destruct t as [| | | |t| |]; try discriminate B; [|destruct t as [k| | | | | |]; try discriminate B; destruct k; try discriminate B].
  - exact (U old x E).
  - exact (U old x E).
Qed.
(** ReadTail makes a slice of no more elements than the input fills *)
Theorem C26_tail_within_input_partial : forall k b old x s, ReadTail (TSl (TNum k)) old (st0 b []) = Ok (x, s) ->
  Forall (fun n => n * Z.of_nat (width k) <= zlen b) (s_alloc s).
Proof.
  intros k b old x s E. destruct (match k with U8 => false | _ => true end) eqn:K.
  - rewrite (bulk_tail k K) in E. cbn [failed st0 s_rd r_err r_body] in E. fold (st0 b []) in E. pose proof (width_pos k) as W. pose proof (zlen_nn b) as Lb.
    assert (Q : 0 <= zlen b / Z.of_nat (width k)) by (apply Z.div_pos; lia). rewrite make_slice_ok in E by exact Q. cbn [bind app] in E.
    assert (P : forall l y s', call (RBulk k l) (st0 b [zlen b / Z.of_nat (width k)]) = Ok (y, s') -> s_alloc s' = [zlen b / Z.of_nat (width k)]).
    { intros l y s' C. unfold call in C. destruct (r_call _ _) as [[v r]|]; [|discriminate]. injection C as _ <-. reflexivity. }
    destruct (call (RBulk k _) _) as [[y s']| |] eqn:C; try discriminate E. cbn [bind] in E. apply P in C.
    assert (A : s_alloc s = s_alloc s') by (destruct (_ =? 0) in E; injection E as _ <-; reflexivity). rewrite A, C. constructor; [|constructor].
    rewrite Z.mul_comm. apply Z.mul_div_le. lia.
  - destruct k; try discriminate K. vm_compute in E. injection E as _ <-. constructor.
Qed.
Example C26_ex : exists s, Read TStr [] (st0 [2; 0; 0; 0; 7; 8; 9] []) = Ok ([7; 8], s) /\ failed s = false /\
  exists s', ReadTail (TSl (TNum U16)) [] (st0 [1; 2; 3] []) = Ok ([513], s') /\ s_alloc s' = [1].
Proof. eexists. split; [vm_compute; reflexivity|split; [reflexivity|]]. eexists. split; [vm_compute; reflexivity|reflexivity]. Qed.
Print Assumptions C26_allocation_unbounded_refuted. Print Assumptions C26_bytes_within_input_partial. Print Assumptions C26_tail_within_input_partial.
