(** Properties C11-C17, C22 and C23. *)
From Coq Require Import ZArith List Bool Arith Lia.
Import ListNotations.
From Verif Require Import Base PrimModel PrimSpec PrimProofs PrimWriter.
Open Scope Z_scope.

(** ** C11 *)

(** What Uint64var appends is the base-128 numeral of the number: 1 to 10 groups, no leading zero
    group, and no numeral of the same number is shorter. *)
Theorem C11_varint_is_the_shortest_numeral : forall w i, wf w -> 0 <= i < 2 ^ 64 ->
  exists w' ds, w_call w (WVar i) = Some w' /\ wbytes w' = wbytes w ++ mark ds /\
    Forall digit_ok ds /\ digits_value 0 ds = i /\ (1 <= length ds <= 10)%nat /\
    ((1 < length ds)%nat -> hd 0 ds <> 0) /\
    forall es, Forall digit_ok es -> es <> [] -> digits_value 0 es = i -> (length ds <= length es)%nat.
Proof.
  intros w i W H. destruct (call_gen w (WVar i) W) as (w' & E & _ & (t & _ & B & T) & _).
  exists w', (digs (nbytes i) i). rewrite B, (T H). cbn [appended]. rewrite var_bytes_mark by exact H.
  pose proof (nbytes_range i). pose proof (digs_length (nbytes i) i) as L.
  split; [exact E|split; [reflexivity|split; [apply digs_ok|split; [|split; [lia|split]]]]].
  - rewrite digs_value, Z.mod_small; [lia|]. split; [lia|now apply nbytes_hi].
  - rewrite L. intro N. destruct (nbytes i) as [|k] eqn:K; [lia|]. rewrite digs_hd. cbn [hd].
    pose proof (nbytes_lo i H ltac:(lia)) as A. pose proof (nbytes_hi i H) as C. rewrite K in A, C.
    replace (S k - 1)%nat with k in A by lia. rewrite pow128_S in C. pose proof (pow128_pos k).
    rewrite Z.mod_small; [pose proof (Z.div_le_lower_bound i (128 ^ Z.of_nat k) 1); lia|].
    split; [apply Z.div_pos; lia|apply Z.div_lt_upper_bound; lia].
  - intros es D N V. rewrite L. now apply minimal_digits.
Qed.
Theorem C11_varint_roundtrip : forall w i rest, wf w -> 0 <= i < 2 ^ 64 ->
  exists w' enc, w_call w (WVar i) = Some w' /\ wbytes w' = wbytes w ++ enc /\
    r_call (mkRd (enc ++ rest) None) RVar = Some (VNum i, mkRd rest None).
Proof.
  intros w i rest W H. destruct (C11_varint_is_the_shortest_numeral w i W H) as (w' & ds & E & B & D & V & L & _).
  exists w', (mark ds). split; [exact E|split; [exact B|]]. cbn [r_call r_err r_body].
  pose proof (scan_mark ds rest 0 D ltac:(destruct ds; [cbn in L; lia|easy]) ltac:(lia)) as K.
  rewrite V in K. destruct (Z.ltb_spec i (2 ^ 64)); [|lia]. now rewrite K.
Qed.
Example C11_ex : var_bytes 300 = [130; 44] /\ var_bytes (2 ^ 64 - 1) = [129; 255; 255; 255; 255; 255; 255; 255; 255; 127].
Proof. split; reflexivity. Qed.
Example C11_wf : wf (w_new 0). Proof. apply new_wf. Qed.

(** ** C12 *)
(** a complete numeral that fits in 64 bits, at the front of a body *)
Definition starts_with (b : list Z) (ds rest : list Z) : Prop :=
  ds <> [] /\ Forall digit_ok ds /\ b = mark ds ++ rest /\ digits_value 0 ds < 2 ^ 64.
Theorem C12_varint_decoding_total : forall b, bytes_ok b -> exists v r,
  r_call (mkRd b None) RVar = Some (VNum v, r) /\
  ((exists ds rest, starts_with b ds rest /\ v = digits_value 0 ds /\ 0 <= v < 2 ^ 64 /\ r = mkRd rest None) \/
   (r_body r = b /\ r_err r <> None /\ ~ exists ds rest, starts_with b ds rest)).
Proof.
  intros b H. cbn [r_call r_err r_body].
  destruct (split_body b H) as [(ds & rest & N & D & E)|(ds & D & E)].
  - pose proof (scan_mark ds rest 0 D N ltac:(lia)) as K. rewrite <- E in K.
    pose proof (digits_value_lt_pow ds D) as P.
    destruct (Z.ltb_spec (digits_value 0 ds) (2 ^ 64)) as [h|h].
    + rewrite K. eexists _, _. split; [reflexivity|left]. exists ds, rest. unfold starts_with. auto 10 with zarith.
    + destruct K as (v & K). rewrite K. eexists _, _. split; [reflexivity|right]. split; [reflexivity|split; [easy|]].
      intros (es & r2 & N2 & D2 & E2 & V2).
      pose proof (scan_mark es r2 0 D2 N2 ltac:(lia)) as K2. rewrite <- E2, K in K2.
      destruct (Z.ltb_spec (digits_value 0 es) (2 ^ 64)); [discriminate|lia].
  - destruct (scan_hi ds 0 D ltac:(lia)) as (v & e & K). rewrite <- E in K. rewrite K.
    eexists _, _. split; [reflexivity|right]. split; [reflexivity|split; [easy|]].
    intros (es & r2 & N2 & D2 & E2 & V2). apply (mark_hi_disjoint es r2 ds D2 N2 D). congruence.
Qed.
(** a numeral of 2^64 is rejected, and so is an unfinished one; leading zero groups are accepted *)
Example C12_ex :
  r_call (mkRd (130 :: repeat 128 8 ++ [0; 7]) None) RVar = Some (VNum (2 ^ 57), mkRd (130 :: repeat 128 8 ++ [0; 7]) (Some EVarBig)) /\
  r_call (mkRd [130; 130] None) RVar = Some (VNum 258, mkRd [130; 130] (Some EVarShort)) /\
  r_call (mkRd [128; 130; 44; 9] None) RVar = Some (VNum 300, mkRd [9] None).
Proof. vm_compute. auto. Qed.

(** ** C13 and C14: writing items and reading them back *)
Inductive item := INum (k : kind) (x : Z) | INumVar (i : Z) | INums (k : kind) (xs : list Z) | IBytes (b : list Z).
Definition item_ok (a : item) : Prop :=
  match a with
  | INum k x => kind_ok k x
  | INumVar i => 0 <= i < 2 ^ 64
  | INums k xs => k <> F64 /\ Forall (kind_ok k) xs
  | IBytes b => bytes_ok b
  end.
Definition item_write (a : item) : wcall :=
  match a with
  | INum k x => WFixed k x
  | INumVar i => WVar i
  | INums F64 xs => WFloat64sl xs
  | INums k xs => WSlice k xs
  | IBytes b => WBytes b
  end.
(** the read used for it; bulk reads fill a destination of the same length *)
Definition item_read (a : item) : rcall :=
  match a with
  | INum k _ => RFixed k
  | INumVar _ => RVar
  | INums k xs => RBulk k (repeat 0 (length xs))
  | IBytes b => RSlice (zlen b)
  end.
Definition item_val (a : item) : rval :=
  match a with INum _ x => VNum x | INumVar i => VNum i | INums _ xs => VNums xs | IBytes b => VBytes b end.

Theorem C13_fixed_width_little_endian : forall w k x, wf w -> kind_ok k x ->
  exists w', w_call w (WFixed k x) = Some w' /\ wbytes w' = wbytes w ++ layout k x.
Proof.
  intros w k x W H. destruct (call_gen w (WFixed k x) W) as (w' & E & _ & (t & _ & B & T) & _).
  exists w'. split; [exact E|]. rewrite B, (T I). cbn [appended]. now rewrite layout_eq.
Qed.
Theorem C13_fixed_width_roundtrip : forall w k x rest, wf w -> kind_ok k x ->
  exists w' enc, w_call w (WFixed k x) = Some w' /\ wbytes w' = wbytes w ++ enc /\
    r_call (mkRd (enc ++ rest) None) (RFixed k) = Some (VNum x, mkRd rest None).
Proof.
  intros w k x rest W H. destruct (C13_fixed_width_little_endian w k x W H) as (w' & E & B).
  exists w', (layout k x). split; [exact E|split; [exact B|]]. cbn [r_call r_err r_body].
  rewrite app_length. unfold layout at 1. rewrite le_enc_length.
  destruct (Nat.ltb_spec (width k + length rest) (width k)); [lia|].
  destruct (dec_fixed k x rest H) as [-> ->]. reflexivity.
Qed.
Example C13_ex : layout I16 (-2) = [254; 255] /\ layout U32 258 = [2; 1; 0; 0] /\
  r_call (mkRd [254; 255; 1] None) (RFixed I16) = Some (VNum (-2), mkRd [1] None).
Proof. vm_compute. auto. Qed.

(** every element type but float64 *)
Theorem C14_slices_roundtrip_partial : forall w k xs rest dst, wf w -> k <> F64 -> Forall (kind_ok k) xs -> length dst = length xs ->
  exists w', w_call w (item_write (INums k xs)) = Some w' /\ wbytes w' = wbytes w ++ flat_map (layout k) xs /\
    r_call (mkRd (flat_map (layout k) xs ++ rest) None) (RBulk k dst) = Some (VNums xs, mkRd rest None).
Proof.
  intros w k xs rest dst W N F L.
  destruct (call_gen w (WSlice k xs) W) as (w' & E & _ & (t & _ & B & T) & _).
  exists w'. split; [destruct k; easy|split].
  - rewrite B, (T I). cbn [appended]. f_equal. clear - F. induction F; [reflexivity|]. cbn [flat_map]. now rewrite IHF, layout_eq.
  - cbn [r_call r_err r_body]. rewrite app_length, flat_len, L.
    destruct (Nat.ltb_spec (length xs * width k + length rest) (length xs * width k)); [lia|].
    destruct (dec_bulk k rest xs F) as [-> ->]. reflexivity.
Qed.
(** The full property is false for float64: Float64sl stores element j at offset 4j. *)
Theorem C14_float64_slices_refuted : exists xs w enc, Forall (kind_ok F64) xs /\
  w_call (w_new 0) (item_write (INums F64 xs)) = Some w /\ wbytes w = enc /\
  exists v r, r_call (mkRd enc None) (RBulk F64 (repeat 0 (length xs))) = Some (v, r) /\ v <> VNums xs.
Proof.
  exists [4607182418800017408; 4611686018427387904].  (* []float64{1, 2} *)
  eexists _, _. split; [repeat (constructor; [split; vm_compute; congruence|]); constructor|]. split; [vm_compute; reflexivity|split; [vm_compute; reflexivity|]].
  eexists _, _. split; [vm_compute; reflexivity|discriminate].
Qed.
Example C14_ex : exists w, w_call (w_new 0) (item_write (INums I32 [-1; 7])) = Some w /\ wbytes w = [255; 255; 255; 255; 7; 0; 0; 0].
Proof. eexists. split; vm_compute; reflexivity. Qed.

(** whole messages made of items: what Written returns is read back item by item *)
Fixpoint read_all (r : rd) (cs : list rcall) : option (list rval * rd) :=
  match cs with
  | [] => Some ([], r)
  | c :: cs =>
      match r_call r c with
      | None => None
      | Some (v, r) => match read_all r cs with None => None | Some (vs, r) => Some (v :: vs, r) end
      end
  end.
Lemma item_read_ok a rest : item_ok a ->
  call_ok (item_write a) /\ r_call (mkRd (appended (item_write a) ++ rest) None) (item_read a) = Some (item_val a, mkRd rest None).
Proof.
  destruct (new_wf 0) as [W _].
  destruct a as [k x|i|k xs|b]; cbn [item_ok item_write item_read item_val call_ok]; intro H.
  - split; [easy|]. destruct (C13_fixed_width_roundtrip (w_new 0) k x rest W H) as (w' & enc & E & B & R).
    destruct (call_gen (w_new 0) (WFixed k x) W) as (w2 & E2 & _ & (t & _ & B2 & T) & _). rewrite E in E2. injection E2 as <-.
    rewrite (T I) in B2. rewrite B in B2. apply app_inv_head in B2. now rewrite <- B2.
  - split; [easy|]. destruct (C11_varint_roundtrip (w_new 0) i rest W H) as (w' & enc & E & B & R).
    destruct (call_gen (w_new 0) (WVar i) W) as (w2 & E2 & _ & (t & _ & B2 & T) & _). rewrite E in E2. injection E2 as <-.
    rewrite (T H) in B2. rewrite B in B2. apply app_inv_head in B2. now rewrite <- B2.
  - destruct H as [N F]. split; [destruct k; easy|].
    destruct (C14_slices_roundtrip_partial (w_new 0) k xs rest (repeat 0 (length xs)) W N F (repeat_length _ _)) as (w' & E & B & R).
    replace (appended match k with F64 => WFloat64sl xs | _ => WSlice k xs end) with (flat_map (layout k) xs); [exact R|].
    assert (G : flat_map (layout k) xs = flat_map (fun x => le_enc (width k) (to_bits k x)) xs)
      by (clear - F; induction F; [reflexivity|]; cbn [flat_map]; now rewrite IHF, layout_eq).
    rewrite G. destruct k; easy.
  - split; [easy|]. cbn [appended r_call r_err r_body]. rewrite app_length.
    unfold zlen. destruct (Z.ltb_spec (Z.of_nat (length b + length rest)) (Z.of_nat (length b))); [lia|].
    destruct (Z.ltb_spec (Z.of_nat (length b)) 0); [lia|]. rewrite Nat2Z.id.
    rewrite firstn_app_len, skipn_app_len by reflexivity. reflexivity.
Qed.
Theorem C13_messages_roundtrip : forall w items rest, wf w -> wbytes w = [] -> Forall item_ok items ->
  exists w' s, wrun w (map (fun a => OCall (item_write a)) items ++ [OWritten]) = Some (w', [s]) /\
    read_all (mkRd (sl_bytes (w_mem w') s ++ rest) None) (map item_read items) = Some (map item_val items, mkRd rest None).
Proof.
  intros w items rest W B F.
  destruct (wrun_gen (map (fun a => OCall (item_write a)) items ++ [OWritten]) w W) as (w' & ss & E & W' & _ & _ & X).
  assert (O : Forall op_ok (map (fun a => OCall (item_write a)) items ++ [OWritten])).
  { apply Forall_app; split; [|now repeat constructor]. apply Forall_map. eapply Forall_impl; [|exact F].
    intros a Ha. apply (item_read_ok a [] Ha). }
  destruct (X O) as [X1 _].
  assert (P : forall items acc, expected acc (map (fun a => OCall (item_write a)) items ++ [OWritten]) =
    [acc ++ flat_map (fun a => appended (item_write a)) items]).
  { clear. induction items as [|a items IH]; intro acc; cbn [map app expected flat_map]; [now rewrite app_nil_r|].
    rewrite IH. now rewrite <- app_assoc. }
  rewrite P, B in X1. cbn [app] in X1. destruct ss as [|s [|]]; try discriminate. injection X1 as X1.
  exists w', s. split; [exact E|]. rewrite X1. clear - F.
  induction F as [|a items Ha _ IH]; [reflexivity|]. cbn [map flat_map read_all]. rewrite <- app_assoc.
  destruct (item_read_ok a (flat_map (fun a => appended (item_write a)) items ++ rest) Ha) as [_ ->]. now rewrite IH.
Qed.

(** ** C15 *)
Theorem C15_errors_are_sticky : forall r cs, r_err r <> None ->
  read_all r cs = Some (map zero_val cs, r).
Proof.
  intros r cs H. induction cs as [|c cs IH]; [reflexivity|]. cbn [read_all map]. unfold r_call.
  destruct (r_err r) as [e|] eqn:E; [|easy]. rewrite IH. reflexivity.
Qed.
(** and a read that fails consumes nothing *)
Theorem C15_a_failing_read_consumes_nothing : forall r c v r', r_call r c = Some (v, r') -> r_err r' <> None -> r_body r' = r_body r.
Proof.
  intros r c v r' E N. unfold r_call in E. destruct (r_err r) eqn:X; [injection E as <- <-; reflexivity|].
  destruct c; cbv zeta in E; repeat (match type of E with
    | context [if ?t then _ else _] => destruct t
    | context [match var_scan ?a ?b with _ => _ end] => destruct (var_scan a b) as [? [?|?]]
    end); try discriminate; injection E as <- <-; cbn in *; congruence.
Qed.
Example C15_ex : r_err (mkRd [1; 2] (Some EShort)) <> None /\
  read_all (mkRd [1; 2] None) [RFixed U32; RFixed U8; RVar; RBulk U8 [9]; RTail] =
    Some ([VNum 0; VNum 0; VNum 0; VNums [9]; VBytes []], mkRd [1; 2] (Some EShort)).
Proof. split; [easy|reflexivity]. Qed.

(** ** C16 *)
(** The exact set of panicking calls: Slice and String with a negative size on a reader without error. *)
Theorem C16_no_panic_unless_negative_size_partial : forall r c,
  r_call r c = None <-> r_err r = None /\ exists sz, sz < 0 /\ (c = RSlice sz \/ c = RString sz).
Proof.
  intros r c. unfold r_call. destruct (r_err r) as [e|] eqn:E.
  - split; [easy|]. intros [? _]; easy.
  - destruct c; cbv zeta.
    + split; [destruct (_ <? _)%nat; easy|intros (_ & sz & _ & [?|?]); easy].
    + split; [destruct (var_scan _ _) as [? [?|?]]; easy|intros (_ & sz & _ & [?|?]); easy].
    + split; [destruct (_ <? _)%nat; easy|intros (_ & sz & _ & [?|?]); easy].
    + destruct (Z.ltb_spec (Z.of_nat (length (r_body r))) sz).
      * split; [easy|]. intros (_ & s & L & [Q|Q]); [injection Q as <-; lia|easy].
      * destruct (Z.ltb_spec sz 0); split; try easy; [intros _; split; [reflexivity|]; exists sz; auto|].
        intros (_ & s & L & [Q|Q]); [injection Q as <-; lia|easy].
    + destruct (Z.ltb_spec (Z.of_nat (length (r_body r))) sz).
      * split; [easy|]. intros (_ & s & L & [Q|Q]); [easy|injection Q as <-; lia].
      * destruct (Z.ltb_spec sz 0); split; try easy; [intros _; split; [reflexivity|]; exists sz; auto|].
        intros (_ & s & L & [Q|Q]); [easy|injection Q as <-; lia].
    + split; [easy|intros (_ & sz & _ & [?|?]); easy].
Qed.
(** Sizes below 2^63 taken from the wire never panic. *)
Theorem C16_wire_sizes_below_2_63_partial : forall r u, 0 <= u < 2 ^ 63 ->
  r_call r (RSlice (to_int u)) <> None /\ r_call r (RString (to_int u)) <> None.
Proof.
  intros r u H. assert (E : to_int u = u).
  { unfold to_int, of_bits. cbn [signed width andb]. destruct (Z.leb_spec (256 ^ Z.of_nat 8 / 2) u); [|reflexivity].
    cbn in H0. lia. }
  rewrite E. split; intro N; apply C16_no_panic_unless_negative_size_partial in N; destruct N as (_ & sz & L & [Q|Q]); try discriminate;
  injection Q as <-; lia.
Qed.
(** The full property is false: a varint size of 2^63 or more becomes a negative int and Slice panics. *)
Theorem C16_huge_varint_size_refuted : exists body u r, bytes_ok body /\
  r_call (mkRd body None) RVar = Some (VNum u, r) /\ 0 <= u < 2 ^ 64 /\ r_err r = None /\
  r_call r (RSlice (to_int u)) = None.
Proof.
  exists [129; 255; 255; 255; 255; 255; 255; 255; 255; 127]. eexists _, _.
  split; [repeat constructor; cbn; lia|]. split; [vm_compute; reflexivity|]. split; [lia|]. split; vm_compute; reflexivity.
Qed.

(** ** C17 *)
(** varu64size and Varsize are right except when the number has the form 10000000xxx.. (the two leading
    groups are 1 and 0): there they are one too small. *)
Theorem C17_varint_size_exact_partial : forall w i, wf w -> 0 <= i < 2 ^ 64 ->
  exists w' enc, w_call w (WVar i) = Some w' /\ wbytes w' = wbytes w ++ enc /\
  ((exists k, i / 128 ^ Z.of_nat k = 128) -> varu64size i = zlen enc - 1) /\
  (~ (exists k, i / 128 ^ Z.of_nat k = 128) -> varu64size i = zlen enc).
Proof.
  intros w i W H. destruct (call_gen w (WVar i) W) as (w' & E & _ & (t & _ & B & T) & _).
  exists w', t. split; [exact E|split; [exact B|]].
  assert (L : zlen t = Z.of_nat (nbytes i)).
  { rewrite (T H). cbn [appended]. rewrite var_bytes_mark by exact H. unfold zlen. f_equal.
    assert (M : forall ds, length (mark ds) = length ds).
    { clear. induction ds as [|a [|b ds] IH]; [reflexivity..|]. cbn [mark length] in *. now rewrite IH. }
    rewrite M. apply digs_length. }
  rewrite L. now apply varsize_spec.
Qed.
Theorem C17_varint_size_refuted : exists w, w_call (w_new 0) (WVar 128) = Some w /\ zlen (wbytes w) = 2 /\ varu64size 128 = 1.
Proof. eexists. split; [vm_compute; reflexivity|split; vm_compute; reflexivity]. Qed.
Example C17_ex : varu64size 127 = 1 /\ varu64size 129 = 2 /\ varu64size 16384 = 2 /\ varu64size (2 ^ 64 - 1) = 10.
Proof. vm_compute. auto. Qed.

(** ** C22 *)
(** For every history of writes, Written, Reset and DefSize changes, at the end of the history every
    slice returned by Written still holds exactly the bytes appended between the previous Written or
    Reset and it. (Float64sl, whose bytes are wrong anyway, is in the next theorem.) *)
Theorem C22_written_is_exact_and_immutable : forall d ops, Forall op_ok ops ->
  exists w ss, wrun (w_new d) ops = Some (w, ss) /\
    map (sl_bytes (w_mem w)) ss = expected [] ops /\ wbytes w = pending [] ops.
Proof.
  intros d ops O. destruct (new_wf d) as [W B].
  destruct (wrun_gen ops _ W) as (w & ss & E & _ & _ & _ & X). exists w, ss. split; [exact E|].
  destruct (X O) as [X1 X2]. rewrite B in *. now split.
Qed.
Lemma wrun_app a : forall w w1 s1 b, wrun w a = Some (w1, s1) ->
  wrun w (a ++ b) = match wrun w1 b with None => None | Some (w2, s2) => Some (w2, s1 ++ s2) end.
Proof.
  induction a as [|o a IH]; intros w w1 s1 b E; cbn [wrun app] in *.
  - injection E as <- <-. destruct (wrun w b) as [[? ?]|]; reflexivity.
  - destruct o.
    + destruct (w_call w c); [now apply IH|discriminate].
    + destruct (w_Written w) as [w0 s0]. destruct (wrun w0 a) as [[w2 l]|] eqn:K; [|discriminate]. injection E as <- <-.
      rewrite (IH _ _ _ b K). destruct (wrun w2 b) as [[? ?]|]; reflexivity.
    + now apply IH.
    + now apply IH.
Qed.
(** Immutability, for all operations without exception: whatever is done later, slices returned so far
    keep the bytes they had. *)
Theorem C22_written_never_changes : forall d before after w1 s1, wrun (w_new d) before = Some (w1, s1) ->
  exists w2 s2, wrun (w_new d) (before ++ after) = Some (w2, s1 ++ s2) /\
    map (sl_bytes (w_mem w2)) s1 = map (sl_bytes (w_mem w1)) s1.
Proof.
  intros d before after w1 s1 E. destruct (new_wf d) as [W _].
  destruct (wrun_gen before _ W) as (w & ss & E1 & W1 & _ & F & _). rewrite E in E1. injection E1 as <- <-.
  destruct (wrun_gen after _ W1) as (w2 & s2 & E2 & _ & S2 & _ & _).
  exists w2, s2. split; [now rewrite (wrun_app _ _ _ _ after E), E2|].
  apply map_ext_in. intros s Hs. apply S2. rewrite Forall_forall in F. now apply F.
Qed.
Example C22_ex : exists w ss, wrun (w_new 4) [OCall (WBytes [1; 2]); OWritten; OCall (WFixed U16 3); OReset; OCall (WBytes [4; 5; 6]); OWritten; OCall (WBytes [7; 7; 7; 7; 7; 7; 7])] = Some (w, ss) /\
  map (sl_bytes (w_mem w)) ss = [[1; 2]; [4; 5; 6]].
Proof. eexists _, _. split; vm_compute; reflexivity. Qed.

(** ** C23 *)
Theorem C23_growth_is_sufficient : forall w n, wf w -> exists w', w_ensure w n = Some w' /\ wf w' /\
  s_len (w_buf w') = (s_len (w_buf w) + n)%nat /\ firstn (s_len (w_buf w)) (wbytes w') = wbytes w.
Proof.
  intros w n W. destruct (ensure_ok w n W) as (w' & E & W' & L & F & _). eauto 10.
Qed.
(** every state a Writer can get into satisfies the hypothesis, and no write ever panics *)
Theorem C23_reachable_writers_never_panic : forall d ops, exists w ss, wrun (w_new d) ops = Some (w, ss) /\ wf w.
Proof. intros d ops. destruct (wrun_gen ops _ (proj1 (new_wf d))) as (w & ss & E & W & _). eauto. Qed.
Example C23_ex : new_cap 0 0 1 = 512 /\ new_cap 0 500 13 = 768 /\ new_cap (-5) 3 4 = 8.
Proof. vm_compute. auto. Qed.

Print Assumptions C11_varint_is_the_shortest_numeral.
Print Assumptions C11_varint_roundtrip.
Print Assumptions C12_varint_decoding_total.
Print Assumptions C13_fixed_width_little_endian.
Print Assumptions C13_fixed_width_roundtrip.
Print Assumptions C13_messages_roundtrip.
Print Assumptions C14_slices_roundtrip_partial.
Print Assumptions C14_float64_slices_refuted.
Print Assumptions C15_errors_are_sticky.
Print Assumptions C15_a_failing_read_consumes_nothing.
Print Assumptions C16_no_panic_unless_negative_size_partial.
Print Assumptions C16_wire_sizes_below_2_63_partial.
Print Assumptions C16_huge_varint_size_refuted.
Print Assumptions C17_varint_size_exact_partial.
Print Assumptions C17_varint_size_refuted.
Print Assumptions C22_written_is_exact_and_immutable.
Print Assumptions C22_written_never_changes.
Print Assumptions C23_growth_is_sufficient.
Print Assumptions C23_reachable_writers_never_panic.
