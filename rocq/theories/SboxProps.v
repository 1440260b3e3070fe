(** Properties C60-C65 and C86: sbox tuples, requests and results. *)
From Coq Require Import ZArith List Bool Arith Lia.
Import ListNotations.
From Verif Require Import Base PrimModel PrimSpec CodecModel CodecSpec CodecProofs CodecRead SboxModel SboxSpec SboxProofs.
Open Scope Z_scope.

(** ** C60: the key count of a select is the number of key tuples that follow *)
Theorem C60_count_partial q : request_good (RSelect q) ->
  let ks := key_tuples (sel_keys q) in
  SelectReq_IWrite q = Ok (le_enc 4 (sel_space q) ++ le_enc 4 (sel_index q) ++ le_enc 4 (sel_offset q) ++
    le_enc 4 (limit_of (sel_limit q) (zlen ks)) ++ le_enc 4 (zlen ks) ++ flat_map tuple_bytes ks) /\ Forall tuple_ok ks.
Proof. intro G. destruct (request_ok _ G) as (E & V & _). split; [exact E|]. apply V. Qed.
(** and they cannot be read as another number of tuples *)
Theorem C60_unambiguous ts us : Forall tuple_ok ts -> Forall tuple_ok us -> flat_map tuple_bytes ts = flat_map tuple_bytes us -> ts = us.
Proof. apply tuples_unique. Qed.
(** an []interface{} of keys announces the sum of its elements' counts and carries one tuple for each element *)
Theorem C60_interface_keys l n : Forall arg_good l -> CountKeys (KIfs l) = Ok n ->
  WriteKeys (KIfs l) = Ok (flat_map tuple_bytes (map arg_tuple l)) /\ Forall tuple_ok (map arg_tuple l) /\
  (n = zlen (map arg_tuple l) <-> n = zlen l).
Proof.
  intros G E. cbn [WriteKeys]. split; [|split].
  - rewrite (enc_list_ok _ (fun a => tuple_bytes (arg_tuple a))); [now rewrite enc_fields|]. intros x Hx. rewrite Forall_forall in G. now apply WriteTuple_ok, G.
  - apply Forall_map. eapply Forall_impl; [|exact G]. intros a A. now apply WriteTuple_ok.
  - now rewrite zlen_map.
Qed.
Definition bad_select : select_req := mkSel 1 0 0 (-1) (KIfs [TOne (IVal (TSl (TNum I32)) [1; 2])]).
Theorem C60_count_refuted :
  (* []interface{}{[]int32{1, 2}}: announced 2, one tuple of two fields *)
  SelectReq_IWrite bad_select = Ok (le_enc 4 1 ++ le_enc 4 0 ++ le_enc 4 0 ++ le_enc 4 (2 ^ 31 - 1) ++ le_enc 4 2 ++ tuple_bytes [[1; 0; 0; 0]; [2; 0; 0; 0]]) /\
  (* []*uint32{nil, &five}: announced 2, one tuple *)
  SelectReq_IWrite (mkSel 1 0 0 (-1) (KOne (IVal (TSl (TPtr (TNum U32))) [None; Some 5]))) =
    Ok (le_enc 4 1 ++ le_enc 4 0 ++ le_enc 4 0 ++ le_enc 4 (2 ^ 31 - 1) ++ le_enc 4 2 ++ tuple_bytes [[5; 0; 0; 0]]).
Proof. split; vm_compute; reflexivity. Qed.

(** ** C61: tuples survive the round trip *)
Theorem C61_layout t v : good t = true -> fit t v -> WriteTuple (TOne (IVal t v)) = Ok (tuple_bytes (fields t v)).
Proof. intros G F. now apply write_one_ok. Qed.
Theorem C61_interface_layout l : Forall item_good l -> zlen l < 2 ^ 32 -> WriteTuple (TIfs l) = Ok (tuple_bytes (map item_field l)).
Proof. intros G L. exact (proj1 (WriteTuple_ok (TIfs l) (conj L G))). Qed.
Theorem C61_round_trip_partial t v old rest al : good t = true -> fit t v -> shaped t old ->
  exists b v' al', WriteTuple (TOne (IVal t v)) = Ok b /\ ReadRawTuple t old (st0 (b ++ rest) al) = Ok (v', st0 rest al') /\
    same t v v' /\ (no_skip t = true -> v' = v).
Proof.
  intros G F S. exists (tuple_bytes (fields t v)). pose proof (C61_layout t v G F) as W. destruct F as (F & K & N).
  unfold good in G. apply andb_prop in G. destruct G as [G P]. destruct (sb_read_ok t false v old rest G F K N S al) as (v' & al' & E & R).
  exists v', al'. split; [exact W|split; [|split; [exact R|]]].
  - unfold ReadRawTuple. unfold fill_ok in P. destruct (Sz false t) as [z1|], (Sz true t) as [z2|]; try discriminate P. exact E.
  - intro Q. symmetry. now apply (proj1 same_eq).
Qed.
(** a tuple preceded by the size of its fields, as results carry it *)
Theorem C61_sized_round_trip_partial t v old rest al : good t = true -> fit t v -> small (fields t v) -> shaped t old ->
  exists v' al', ReadSizedTuple t old (st0 (sized_bytes (fields t v) ++ rest) al) = Ok (v', st0 rest al') /\ same t v v' /\ (no_skip t = true -> v' = v).
Proof.
  intros G F M S. unfold good in G. apply andb_prop in G. destruct G as [G P].
  destruct (sb_read_whole t false v old al G F S) as (v' & al' & E & R). exists v', al'. split; [|split; [exact R|intro Q; symmetry; now apply (proj1 same_eq)]].
  unfold ReadSizedTuple. unfold sized_bytes. rewrite <- app_assoc. rewrite r_u32_ok by (split; [apply zlen_nn|exact M]). cbn [bind failed st0 s_rd r_err].
  rewrite <- tuple_len. change {| s_rd := {| r_body := ?b; r_err := None |}; s_alloc := ?a |} with (st0 b a). rewrite slice_ok. cbn [bind nums].
  unfold ReadRawTuple. unfold fill_ok in P. destruct (Sz false t) as [z1|], (Sz true t) as [z2|]; try discriminate P.
  unfold sub. cbn [s_alloc st0]. unfold st0 in E. rewrite E. cbn [bind s_rd r_body r_err s_alloc]. reflexivity.
Qed.
(** a number tagged ber that is 128: announced in one byte, written in two; a []float64 loses its elements *)
Definition ber_struct : ty := TStruct (FCons TgAuto (TVar U32) FNil).
Definition floats : ty := TStruct (FCons TgAuto (TSl (TNum F64)) FNil).
Theorem C61_round_trip_refuted :
  (WriteTuple (TOne (IVal ber_struct (128, tt))) = Ok [1; 0; 0; 0; 1; 129; 0] /\
   exists x s, ReadRawTuple ber_struct (0, tt) (st0 [1; 0; 0; 0; 1; 129; 0] []) = Ok (x, s) /\ r_err (s_rd s) = Some EVarShort) /\
  (exists b s, WriteTuple (TOne (IVal floats ([1; 2], tt))) = Ok b /\ ReadRawTuple floats ([], tt) (st0 b []) = Ok (([8589934593; 0], tt), s)).
Proof.
  split; [split; [reflexivity|eexists _, _; split; [vm_compute; reflexivity|reflexivity]]|].
  eexists _, _. split; [vm_compute; reflexivity|vm_compute; reflexivity].
Qed.

(** ** C62: each operation kind is encoded as its number *)
Theorem C62_known f k v : u32_ok f -> item_good v -> forall c, op_number k = Some c ->
  Op_IWrite (mkOp f k v) = Ok (le_enc 4 f ++ [c] ++ field_bytes (item_field v)).
Proof.
  intros F V c E. assert (G : op_good (mkOp f k v)) by (split; [exact F|split; [cbn; congruence|exact V]]).
  destruct (op_ok _ G) as [W _]. rewrite W. unfold op_view. cbn. now rewrite E.
Qed.
(** an unknown kind is not rejected: it becomes "set" *)
Lemma opmap_default : forall n, (n < 125)%nat -> op_number (Z.of_nat n) = None -> nth_error opmap n = Some 0.
Proof.
  intros n H. assert (B : forallb (fun n => match op_number (Z.of_nat n), nth_error opmap n with None, Some 0 => true | Some _, _ => true | _, _ => false end) (seq 0 125) = true) by (vm_compute; reflexivity).
  rewrite forallb_forall in B. specialize (B n). intro E. rewrite E in B. assert (X : In n (seq 0 125)) by (apply in_seq; lia). specialize (B X).
  destruct (nth_error opmap n) as [[| |]|]; try discriminate B. reflexivity.
Qed.
Theorem C62_unknown_becomes_set f k v : 0 <= k < 125 -> op_number k = None -> Op_IWrite (mkOp f k v) = Op_IWrite (mkOp f 61 v).
Proof.
  intros H E. unfold Op_IWrite. cbn [op_kind op_val op_field]. assert (C : op_code k = op_code 61); [|now rewrite C].
  unfold op_code. destruct (Z.leb_spec k 7) as [L|L].
  - exfalso. assert (k = 0 \/ k = 1 \/ k = 2 \/ k = 3 \/ k = 4 \/ k = 5 \/ k = 6 \/ k = 7) as D by lia. repeat (destruct D as [->|D]; [discriminate E|]). subst. discriminate E.
  - rewrite opmap_default; [reflexivity|lia|]. now rewrite Z2Nat.id by lia.
Qed.
Theorem C62_too_large_panics f k v : 125 <= k < 256 -> Op_IWrite (mkOp f k v) = Panic.
Proof.
  intro H. unfold Op_IWrite, op_code. cbn [op_kind]. destruct (Z.leb_spec k 7); [lia|].
  destruct (nth_error opmap (Z.to_nat k)) eqn:E; [|reflexivity]. exfalso. assert (N : nth_error opmap (Z.to_nat k) <> None) by congruence.
  apply nth_error_Some in N. unfold opmap in N. rewrite !map_length, seq_length in N. lia.
Qed.
Theorem C62_unknown_rejected_refuted :   (* Op '-' on field 3 overwrites the field *)
  Op_IWrite (mkOp 3 45 (IVal (TNum U32) 1)) = Ok [3; 0; 0; 0; 0; 4; 1; 0; 0; 0] /\
  Op_IWrite (mkOp 3 61 (IVal (TNum U32) 1)) = Ok [3; 0; 0; 0; 0; 4; 1; 0; 0; 0] /\ op_number 45 = None.
Proof. repeat split; vm_compute; reflexivity. Qed.

(** ** C63: the request can be recovered from its type and bytes *)
Theorem C63_layout q : request_good q -> IWrite q = Ok (view_bytes (view_of q)).
Proof. intro G. now apply request_ok. Qed.
Theorem C63_unambiguous_partial p q b : request_good p -> request_good q -> IMsg p = IMsg q -> IWrite p = Ok b -> IWrite q = Ok b -> view_of p = view_of q.
Proof.
  intros P Q M E F. destruct (request_ok p P) as (E1 & V1 & M1), (request_ok q Q) as (E2 & V2 & M2).
  apply view_inj; try assumption; [congruence|]. congruence.
Qed.
(** a nil key writes nothing: an update without a key reads as another update of the record "" *)
Definition nil_update : update_req := mkUpd 0 false (TOne INil) [mkOp 256 0 (IVal TStr [1; 2; 3; 4; 0])].
Definition other_update : update_req := mkUpd 0 false (TOne (IVal TStr [])) [mkOp (5 + 256 * (1 + 256 * (2 + 256 * 3))) 4 (IVal TStr [])].
Theorem C63_nil_key_refuted : IWrite (RUpdate nil_update) = IWrite (RUpdate other_update) /\
  view_of (RUpdate nil_update) <> view_of (RUpdate other_update) /\ request_good (RUpdate other_update).
Proof.
  split; [vm_compute; reflexivity|split; [vm_compute; discriminate|]].
  split; [split; reflexivity || discriminate|]. split; [|split; [reflexivity|]].
  - split; [reflexivity|]. split; [split; [constructor|reflexivity]|]. split; [split; [reflexivity|constructor; [reflexivity|constructor]]|exact Logic.I].
  - constructor; [|constructor]. split; [split; reflexivity || discriminate|split; [discriminate|]].
    split; [reflexivity|split; [reflexivity|]]. split; [split; [constructor|reflexivity]|split; [reflexivity|exact Logic.I]].
Qed.

(** ** C64: tails are written element by element *)
Theorem C64_empty_partial k addr fs vs e : sfields_good addr fs = true -> sfields_fit fs vs -> tuple_ok (struct_fields fs vs) ->
  struct_tail k addr fs vs e [] = Ok (tuple_bytes (tail_fields k fs vs e [])).
Proof. apply tail_empty. Qed.
(** the only elements that are written: empty strings, each of which is one empty field *)
Theorem C64_empty_strings_partial addr fs vs n : sfields_good addr fs = true -> sfields_fit fs vs ->
  tuple_ok (tail_fields SboxModel.Tail fs vs TStr (repeat [] n)) ->
  struct_tail SboxModel.Tail addr fs vs TStr (repeat [] n) = Ok (tuple_bytes (tail_fields SboxModel.Tail fs vs TStr (repeat [] n))).
Proof. apply tail_empty_strings. Qed.
(** any element of a number or struct tail, any non-empty string: the writer panics *)
Theorem C64_tail_refuted addr fs vs e x xs : sfields_good addr fs = true -> sfields_fit fs vs ->
  match e with TNum _ | TStruct _ => True | _ => False end -> struct_tail SboxModel.Tail addr fs vs e (x :: xs) = Panic.
Proof. apply tail_panics. Qed.
Theorem C64_string_tail_refuted addr fs vs x xs : sfields_good addr fs = true -> sfields_fit fs vs -> x <> [] ->
  struct_tail SboxModel.Tail addr fs vs TStr (x :: xs) = Panic.
Proof. apply tail_str_panics. Qed.
(** tailsplit: the elements are left out, whatever they are *)
Theorem C64_split_refuted addr fs vs e xs : sfields_good addr fs = true -> sfields_fit fs vs -> tuple_ok (struct_fields fs vs) ->
  struct_tail TailSplit addr fs vs e xs = Ok (tuple_bytes (struct_fields fs vs)).
Proof. apply split_drops. Qed.
(** reading: the tag is not seen; the second element of the tail is left unread *)
Definition tailed : ty := TStruct (FCons TgAuto (TNum U32) (FCons TgAuto (TSl (TNum U32)) FNil)).
Theorem C64_read_refuted : exists s, ReadRawTuple tailed (0, ([], tt)) (st0 (tuple_bytes [[1; 0; 0; 0]; [2; 0; 0; 0]; [3; 0; 0; 0]]) []) =
  Ok ((1, ([2], tt)), s) /\ r_err (s_rd s) = None.
Proof. eexists. split; [vm_compute; reflexivity|reflexivity]. Qed.

(** ** C65: reading results *)
(** a well-formed response: the number of tuples, then the tuples *)
Theorem C65_read_many_partial t vs rest : good t = true -> readable t = true -> Forall (fit t) vs -> Forall (fun v => small (fields t v)) vs -> zlen vs < 2 ^ 32 ->
  exists m, ReadMany t (le_enc 4 (zlen vs) ++ flat_map sized_bytes (map (fields t) vs) ++ rest) = Ok m /\
    Forall2 (same t) vs (m_slice t m) /\ m_read t m = zlen vs /\ m_total t m = zlen vs /\ m_err t m = None.
Proof. apply read_many_ok. Qed.
Theorem C65_read_first t v old n rest : good t = true -> fit t v -> small (fields t v) -> shaped t old -> 1 <= n < 2 ^ 32 ->
  exists v', ReadFirst t old (le_enc 4 n ++ sized_bytes (fields t v) ++ rest) = Ok (v', true, n, None) /\ same t v v'.
Proof. apply read_first_ok. Qed.
(** no tuple in the response: the variable is left alone *)
Theorem C65_read_first_none t old rest : ReadFirst t old (le_enc 4 0 ++ rest) = Ok (old, false, 0, None).
Proof.
  unfold ReadFirst. assert (U : u32_ok 0) by (unfold u32_ok; lia). pose proof (r_u32_ok 0 rest [] U) as H. unfold st0 in H at 1. rewrite H. reflexivity.
Qed.
(** whatever the bytes: a tuple is reported exactly when one is announced and its size is there; otherwise the variable is left alone *)
Theorem C65_read_first_any t old b x rd total e : ReadFirst t old b = Ok (x, rd, total, e) ->
  (rd = false -> x = old) /\ (rd = true -> 1 <= total) /\ (rd = false -> e = None -> total <= 0).
Proof.
  unfold ReadFirst. destruct (r_u32 _) as [[n s]| |]; cbn [bind]; try discriminate. destruct (Z.ltb_spec 0 n) as [L|L].
  - destruct (r_u32 s) as [[sz s']| |]; cbn [bind]; try discriminate. destruct (r_err (s_rd s')) as [er|].
    + intro H. injection H as <- <- <- <-. split; [reflexivity|split; [discriminate|discriminate]].
    + destruct (call _ s') as [[y s2]| |]; cbn [bind]; try discriminate. destruct (ReadRawTuple _ _ _) as [[z r]| |]; cbn [bind]; try discriminate.
      intro H. injection H as <- <- <- <-. split; [discriminate|split; [lia|discriminate]].
  - intro H. injection H as <- <- <- <-. split; [reflexivity|split; [discriminate|lia]].
Qed.
(** a response too short to hold the number of tuples is reported as one without tuples *)
Theorem C65_short_response_refuted t old b : zlen b < 4 -> ReadFirst t old b = Ok (old, false, 0, None).
Proof.
  intro L. unfold ReadFirst, r_u32, call, r_call. cbn [s_rd r_err r_body]. destruct (Nat.ltb_spec (length b) (width U32)) as [H|H].
  - reflexivity.
  - unfold zlen in L. cbn in H. lia.
Qed.
(** whatever the bytes: without an error every tuple announced was there *)
Theorem C65_counts t b m : ReadMany t b = Ok m ->
  zlen (m_slice t m) = m_total t m /\ 0 <= m_read t m <= m_total t m /\ (m_err t m = None -> m_read t m = m_total t m).
Proof. apply read_many_any. Qed.
(** but a tuple that cannot be decoded is not reported, and spoils the ones after it: the second tuple is the
    uint32 7 and is read as 0 *)
Theorem C65_bad_tuple_refuted : exists m, ReadMany (TNum U32) (le_enc 4 2 ++ sized_bytes [[1]] ++ sized_bytes [[7; 0; 0; 0]]) = Ok m /\
  m_slice _ m = [0; 0] /\ m_read _ m = 2 /\ m_total _ m = 2 /\ m_err _ m = None.
Proof. eexists. split; [vm_compute; reflexivity|]. repeat split. Qed.

(** ** C86: the memory taken by a response is limited by its size *)
Theorem C86_refuted n : 1 <= n < 2 ^ 32 -> exists m, ReadMany (TNum U32) (le_enc 4 n) = Ok m /\ m_alloc _ m = [n] /\ m_err _ m = Some EShort.
Proof.
  intro H. unfold ReadMany. cbn [Sz readable]. assert (U : u32_ok n) by (unfold u32_ok; lia).
  pose proof (r_u32_ok n [] [] U) as E. rewrite app_nil_r in E. unfold st0 in E at 1. rewrite E. cbn [bind]. unfold make_slice.
  destruct (Z.ltb_spec n 0); [lia|]. cbn [bind]. destruct (Z.to_nat n) as [|k] eqn:K; [lia|]. cbn [repeat tuple_loop].
  eexists. split; [reflexivity|]. split; reflexivity.
Qed.
(** with no error, at least eight bytes of the response stand behind every element of the slice *)
Theorem C86_no_error_partial t b m : bytes_ok b -> ReadMany t b = Ok m -> m_err t m = None -> 8 * zlen (m_slice t m) <= zlen b.
Proof. intros B H E. pose proof (read_many_uses t b m B H). destruct (read_many_any t b m H) as (A & _ & Q). rewrite A, <- Q by exact E. assumption. Qed.

(** ** The hypotheses are met *)
(** the struct of the project's tests: {0x3def, 0xfe, []byte{1,2,3}, "abcd"} *)
Definition sample : ty := TStruct (FCons TgAuto (TNum U32) (FCons TgAuto (TNum U8) (FCons TgAuto (TSl (TNum U8)) (FCons TgAuto TStr FNil)))).
Definition sample_v : val sample := (15855, (254, ([1; 2; 3], ([97; 98; 99; 100], tt)))).
Ltac conc := repeat (split || constructor); try reflexivity; try discriminate; try exact Logic.I.
Lemma sample_fit : fit sample sample_v. Proof. unfold fit. cbn. unfold ffit, tuple_ok, bytes_ok, byte_ok, kind_ok. cbn. conc. Qed.
Example ex_sample : good sample = true /\ readable sample = true /\ fit sample sample_v /\ shaped sample (zero sample) /\ no_skip sample = true /\
  fields sample sample_v = [[239; 61; 0; 0]; [254]; [1; 2; 3]; [97; 98; 99; 100]].
Proof. split; [reflexivity|split; [reflexivity|split; [exact sample_fit|split; [apply zero_shaped|split; reflexivity]]]]. Qed.
Example ex_written : WriteTuple (TOne (IVal sample sample_v)) = Ok [4; 0; 0; 0; 4; 239; 61; 0; 0; 1; 254; 3; 1; 2; 3; 4; 97; 98; 99; 100].
Proof. vm_compute. reflexivity. Qed.
Lemma u32_fit n : u32_ok n -> fit (TNum U32) n.
Proof.
  intro U. unfold u32_ok in U. split; [|split; [|exact Logic.I]].
  - unfold tuple_fit, fits, kind_ok. cbn. lia.
  - split; [reflexivity|]. constructor; [|constructor]. unfold zlen, lay, layout. rewrite le_enc_length. reflexivity.
Qed.
(** []uint32{5, 6}, a struct key, []interface{}{uint32(1), &struct} *)
Example ex_sized : small (fields sample sample_v) /\ sized_bytes (fields sample sample_v) = [16; 0; 0; 0; 4; 0; 0; 0; 4; 239; 61; 0; 0; 1; 254; 3; 1; 2; 3; 4; 97; 98; 99; 100].
Proof. split; reflexivity. Qed.
Example ex_empty_strings : tuple_ok (tail_fields SboxModel.Tail (FCons TgAuto (TNum U32) FNil) (1, tt) TStr (repeat [] 2)) /\
  struct_tail SboxModel.Tail false (FCons TgAuto (TNum U32) FNil) (1, tt) TStr (repeat [] 2) = Ok [3; 0; 0; 0; 4; 1; 0; 0; 0; 0; 0].
Proof. split; [split; [reflexivity|repeat constructor]|vm_compute; reflexivity]. Qed.
Example ex_keys : keys_good (KOne (IVal (TSl (TNum U32)) [5; 6])) /\ keys_good (KOne (IVal sample sample_v)) /\
  keys_good (KIfs [TOne (IVal (TNum U32) 1); TOne (IVal (TPtr sample) (Some sample_v))]).
Proof.
  split; [|split].
  - split; [|reflexivity]. split; [reflexivity|split; [reflexivity|]]. constructor; [apply u32_fit; split; reflexivity || discriminate|].
    constructor; [apply u32_fit; split; reflexivity || discriminate|constructor].
  - split; [|reflexivity]. split; [reflexivity|split; [reflexivity|exact sample_fit]].
  - split; [|reflexivity]. constructor; [|constructor; [|constructor]]; (split; [|reflexivity]); (split; [reflexivity|]).
    + apply u32_fit. split; reflexivity || discriminate. + exact sample_fit.
Qed.
Example ex_request : request_good (RStore (mkStore 3 true 1 (TOne (IVal sample sample_v)))) /\
  request_good (RUpdate (mkUpd 3 false (TOne (IVal (TNum U32) 1)) [mkOp 2 43 (IVal (TNum U32) 10)])) /\
  request_good (RRpc (mkRpc [112; 105] [[49]; [50; 51]])).
Proof.
  split; [|split].
  - split; [split; reflexivity || discriminate|split; [split; reflexivity || discriminate|]]. split; [reflexivity|exact sample_fit].
  - split; [split; reflexivity || discriminate|]. split; [split; [reflexivity|apply u32_fit; split; reflexivity || discriminate]|]. split; [reflexivity|].
    constructor; [|constructor]. split; [split; reflexivity || discriminate|split; [discriminate|]]. split; [reflexivity|split; [reflexivity|]].
    split; [unfold fits, kind_ok; cbn; lia|split; [reflexivity|exact Logic.I]].
  - split; [reflexivity|]. split; [reflexivity|]. repeat constructor.
Qed.
Example ex_results : Forall (fit (TNum U32)) [7; 8] /\ Forall (fun v => small (fields (TNum U32) v)) [7; 8] /\ good (TNum U32) = true /\ readable (TNum U32) = true.
Proof.
  split; [constructor; [apply u32_fit; split; reflexivity || discriminate|constructor; [apply u32_fit; split; reflexivity || discriminate|constructor]]|].
  split; [repeat constructor|split; reflexivity].
Qed.
Example ex_tail : sfields_good false (FCons TgAuto (TNum U32) FNil) = true /\ sfields_fit (FCons TgAuto (TNum U32) FNil) (1, tt) /\
  tuple_ok (struct_fields (FCons TgAuto (TNum U32) FNil) (1, tt)) /\ tail_fields SboxModel.Tail (FCons TgAuto (TNum U32) FNil) (1, tt) (TNum U8) [2; 3] = [[1; 0; 0; 0]; [2]; [3]].
Proof.
  split; [reflexivity|split; [|split; [|reflexivity]]].
  - split; [|exact Logic.I]. split; [unfold fits, kind_ok; cbn; lia|split; [reflexivity|exact Logic.I]].
  - split; [reflexivity|repeat constructor].
Qed.

Print Assumptions C60_count_partial.
Print Assumptions C60_unambiguous.
Print Assumptions C60_interface_keys.
Print Assumptions C60_count_refuted.
Print Assumptions C61_layout.
Print Assumptions C61_interface_layout.
Print Assumptions C61_round_trip_partial.
Print Assumptions C61_sized_round_trip_partial.
Print Assumptions C61_round_trip_refuted.
Print Assumptions C62_known.
Print Assumptions C62_unknown_becomes_set.
Print Assumptions C62_too_large_panics.
Print Assumptions C62_unknown_rejected_refuted.
Print Assumptions C63_layout.
Print Assumptions C63_unambiguous_partial.
Print Assumptions C63_nil_key_refuted.
Print Assumptions C64_empty_partial.
Print Assumptions C64_empty_strings_partial.
Print Assumptions C64_tail_refuted.
Print Assumptions C64_string_tail_refuted.
Print Assumptions C64_split_refuted.
Print Assumptions C64_read_refuted.
Print Assumptions C65_read_many_partial.
Print Assumptions C65_read_first.
Print Assumptions C65_read_first_none.
Print Assumptions C65_read_first_any.
Print Assumptions C65_short_response_refuted.
Print Assumptions C65_counts.
Print Assumptions C65_bad_tuple_refuted.
Print Assumptions C86_refuted.
Print Assumptions C86_no_error_partial.
