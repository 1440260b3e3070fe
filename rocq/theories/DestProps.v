(** C131-C134: the destinations of sbox.ReadMany, tuples of another length than the variable, arbitrary bytes. *)
From Coq Require Import ZArith List Bool Arith Lia.
Import ListNotations.
From Verif Require Import Base PrimModel PrimSpec PrimProofs CodecModel CodecSpec CodecProofs CodecRead SboxModel SboxSpec SboxProofs SafeSpec SafeProofs DestModel DestSpec DestProofs.
Open Scope Z_scope.

(** ** C131: ReadMany stores as many tuples as there is room for, and counts them *)
Lemma total_rest ts rest : zlen ts < 2 ^ 32 -> r_u32 (mkSt (mkRd (response ts ++ rest) None) []) = Ok (zlen ts, mkSt (mkRd (flat_map sized_bytes ts ++ rest) None) []).
Proof. intro L. unfold response. rewrite <- app_assoc. apply r_u32_ok. split; [apply zlen_nn|exact L]. Qed.
Lemma array_reads t : good t = true -> forall vs olds n b1 rest al, Forall (fit t) vs -> Forall (fun v => sendable (fields t v)) vs -> Forall (shaped t) olds ->
  exists news b2 al' rest', fill (one_tuple t) (zlen vs) olds n (mkR2 (mkRd (flat_map sized_bytes (map (fields t) vs) ++ rest) None) (mkRd b1 None) al) =
    Ok (news ++ skipn (length news) olds, n + zlen news, mkR2 (mkRd rest' None) (mkRd b2 None) al') /\ Forall2 (same t) (firstn (length olds) vs) news.
Proof.
  intros G. destruct (good_sz t G) as [Gt _]. induction vs as [|v vs IH]; intros olds n b1 rest al F Sm O.
  - exists [], b1, al, rest. rewrite fill_stop by (unfold zlen; cbn; lia). rewrite firstn_nil. split; [|constructor]. cbn [length skipn app]. unfold zlen; cbn [length]. now rewrite Z.add_0_r.
  - destruct olds as [|o olds].
    { exists [], b1, al. eexists. cbn [fill length skipn app firstn]. unfold zlen; cbn [length]. rewrite Z.add_0_r. split; [reflexivity|constructor]. }
    apply Forall_cons_iff in F, Sm, O. destruct F as [F1 F], Sm as [[_ S1] Sm], O as [O1 O]. cbn [map flat_map]. rewrite <- app_assoc.
    destruct (one_tuple_ok t false v o b1 (flat_map sized_bytes (map (fields t) vs) ++ rest) al Gt F1 S1 O1) as (x & al1 & E1 & P1).
    destruct (IH olds (n + 1) [] rest al1 F Sm O) as (news & b3 & al2 & rest' & E2 & P2).
    exists (x :: news), b3, al2, rest'. split; [|cbn [length firstn]; now constructor].
    cbn [fill]. rewrite zlen_cons. pose proof (zlen_nn vs). destruct (Z.leb_spec (1 + zlen vs) 0); [lia|]. rewrite E1. cbn [bind].
    rewrite Z.add_simpl_l, E2. cbn [bind length skipn app]. rewrite zlen_cons. now rewrite Z.add_assoc.
Qed.
(** a pointer to an array of n: the first n tuples, in order; the elements there is no tuple for are left alone *)
Theorem C131_array n t olds vs rest : good t = true -> SboxModel.readable t = true -> shaped (TArr n t) olds ->
  Forall (fit t) vs -> Forall (fun v => sendable (fields t v)) vs -> zlen vs < 2 ^ 32 ->
  exists news al, ReadManyInto (Var (TArr n t) olds) (response (map (fields t) vs) ++ rest) =
      Ok (mkGot (Var (TArr n t) (news ++ skipn (length news) olds)) (zlen news) (zlen vs) None al) /\
    Forall2 (same t) (firstn n vs) news.
Proof.
  intros G R [Ln S] F Sm L. unfold ReadManyInto. rewrite total_rest by (now rewrite zlen_map). cbn [bind read_interface read_var]. unfold read_array.
  destruct (good_sz t G) as (Gt & z & ->). rewrite R. cbn [s_rd s_alloc]. rewrite zlen_map.
  destruct (array_reads t G vs olds 0 [] rest [] F Sm S) as (news & b2 & al & rest' & E & P). rewrite E. unfold gave. cbn [bind r0 r_err r_al].
  exists news, al. split; [now rewrite Z.add_0_l|]. exact (eq_ind _ (fun m => Forall2 (same t) (firstn m vs) news) P n Ln).
Qed.
(** a pointer to a slice: a new slice with all tuples *)
Theorem C131_slice t old vs rest : good t = true -> SboxModel.readable t = true -> Forall (fit t) vs -> Forall (fun v => sendable (fields t v)) vs -> zlen vs < 2 ^ 32 ->
  exists news al, ReadManyInto (Var (TSl t) old) (response (map (fields t) vs) ++ rest) = Ok (mkGot (Var (TSl t) news) (zlen vs) (zlen vs) None al) /\ Forall2 (same t) vs news.
Proof.
  intros G R F Sm L. rewrite into_slice. unfold response. rewrite zlen_map, <- app_assoc.
  destruct (read_many_ok t vs rest G R F) as (m & -> & P & A & B & C); [|exact L|].
  - eapply Forall_impl; [|exact Sm]. intros v [_ H]. exact H.
  - rewrite A, B, C. now exists (m_slice t m), (m_alloc t m).
Qed.
(** the destination is a single value *)
Definition single (t : ty) : bool := match t with TArr _ _ | TSl _ | TVar _ => false | _ => true end.
Lemma single_var t old total s : single t = true -> read_var t old total s =
  do! (x, e, r) <- one_var t old (mkR2 (s_rd s) (mkRd [] None) (s_alloc s)); Ok (mkGot (Var t x) 1 total (r_err (r0 r)) (r_al r)).
Proof. destruct t; try discriminate; reflexivity. Qed.
Theorem C131_single_partial t old v vs rest : single t = true -> good t = true -> shaped t old -> fit t v -> Forall sendable (fields t v :: vs) -> zlen vs < 2 ^ 32 - 1 ->
  exists new al, ReadManyInto (Var t old) (response (fields t v :: vs) ++ rest) = Ok (mkGot (Var t new) 1 (1 + zlen vs) None al) /\ same t v new.
Proof.
  intros I G S F Sm L. unfold ReadManyInto. rewrite total_rest by (rewrite zlen_cons; lia). cbn [bind read_interface]. rewrite (single_var t _ _ _ I). cbn [s_rd s_alloc flat_map]. rewrite <- app_assoc.
  apply Forall_inv in Sm. destruct Sm as [_ Sm]. destruct (good_sz t G) as (Gt & z & Z). unfold one_var.
  destruct (one_tuple_ok t false v old [] (flat_map sized_bytes vs ++ rest) [] Gt F Sm S) as (x & al & E & R). rewrite E. cbn [bind]. rewrite Z. cbn [bind r0 r_err r_al].
  exists x, al. split; [now rewrite zlen_cons|exact R].
Qed.
(** but a response without tuples is reported as one tuple read, with an error *)
Theorem C131_single_none_refuted t old : single t = true -> ReadManyInto (Var t old) (response []) = Ok (mkGot (Var t old) 1 0 (Some EShort) []).
Proof.
  intro I. unfold ReadManyInto. pose proof (total_rest [] [] eq_refl) as H. rewrite app_nil_r in H. rewrite H. cbn [bind read_interface]. rewrite (single_var t _ _ _ I). reflexivity.
Qed.
Lemma fill_any t : forall old k m r l m' q, fill (one_tuple t) k old m r = Ok (l, m', q) ->
    length l = length old /\ skipn (Z.to_nat (m' - m)) l = skipn (Z.to_nat (m' - m)) old /\ m <= m' <= m + Z.min (zlen old) (Z.max 0 k) /\
    (r_err (r0 q) = None -> m' = m + Z.min (zlen old) (Z.max 0 k)).
Proof.
  induction old as [|o old IH]; intros k m r l m' q; cbn [fill].
  - intro H. injection H as <- <- <-. unfold zlen; cbn [length]. split; [reflexivity|split; [reflexivity|split; [lia|intros _; lia]]].
  - rewrite zlen_cons. pose proof (zlen_nn old) as NN. destruct (Z.leb_spec k 0) as [K|K].
    + intro H. injection H as <- <- <-. split; [reflexivity|split; [reflexivity|split; [lia|intros _; lia]]].
    + destruct (one_tuple t o r) as [[[y e] r']| |] eqn:E; cbn [bind]; try discriminate. pose proof (one_tuple_err _ _ _ _ _ _ E) as X. destruct e.
      * intro H. injection H as <- <- <-.
        assert (Y : y = o).
        { revert E. unfold one_tuple. destruct (r_err (r0 r)); [congruence|]. destruct (r_u32 _) as [[sz s']| |]; cbn [bind]; try discriminate. destruct (call _ s') as [[b' s2]| |]; cbn [bind]; try discriminate.
          destruct (failed s2); [congruence|]. destruct (sb_read _ _ _) as [[? ?]| |]; cbn [bind]; discriminate. }
        subst y. split; [reflexivity|split; [reflexivity|split; [lia|contradiction]]].
      * destruct (fill (one_tuple t) (k - 1) old (m + 1) r') as [[[ys n2] r2]| |] eqn:E2; cbn [bind]; try discriminate. intro H. injection H as <- <- <-.
        destruct (IH _ _ _ _ _ _ E2) as (A & B & C & D). split; [cbn [length]; now rewrite A|]. split; [|split; [lia|intro Q; rewrite D by exact Q; lia]].
        replace (Z.to_nat (n2 - m)) with (S (Z.to_nat (n2 - (m + 1)))) by lia. cbn [skipn]. exact B.
Qed.
(** whatever the bytes: an array holds as many new elements as reported, the others are untouched, and without an error
    these are as many as announced or as there is room for *)
Theorem C131_array_any n t olds b g : length olds = n -> ReadManyInto (Var (TArr n t) olds) b = Ok g ->
  exists news, g_dest g = Var (TArr n t) news /\ length news = n /\ skipn (Z.to_nat (g_read g)) news = skipn (Z.to_nat (g_read g)) olds /\
    0 <= g_read g <= Z.min (Z.of_nat n) (Z.max 0 (g_total g)) /\ (g_err g = None -> g_read g = Z.min (Z.of_nat n) (Z.max 0 (g_total g))).
Proof.
  intro Ln. unfold ReadManyInto. destruct (r_u32 _) as [[total s]| |]; cbn [bind]; try discriminate. cbn [read_interface read_var]. unfold read_array.
  destruct (Sz true t); [|discriminate]. destruct (SboxModel.readable t); [|discriminate]. unfold gave.
  destruct (fill _ _ _ _ _) as [[[l m] r]| |] eqn:E; cbn [bind]; try discriminate. intro Q. injection Q as <-. cbn [g_dest g_read g_err g_total].
  destruct (fill_any t _ _ _ _ _ _ _ E) as (A & B & C & D). rewrite Z.sub_0_r in B. assert (Ln' : @zlen (val t) olds = Z.of_nat n) by (unfold zlen; f_equal; exact Ln). rewrite Ln' in C, D. exists l.
  split; [reflexivity|split; [exact (eq_trans A Ln)|split; [exact B|split; [lia|]]]]. intro Q. rewrite D by exact Q. lia.
Qed.

(** ** C132: lists of destinations *)
(** nothing was found: the destinations are left alone *)
Theorem C132_none_partial rest d : match d with Ptrs t _ => Sz true (TSl (TPtr t)) <> None | Slices (TNum _) _ | Slices TStr _ | Ifaces _ => True | _ => False end ->
  ReadManyInto d (response [] ++ rest) = Ok (mkGot d 0 0 None []).
Proof.
  intro H. unfold ReadManyInto. rewrite total_rest by reflexivity. cbn [bind zlen length Z.of_nat read_interface]. destruct d as [t old|t old|e old|n|]; try exact (False_ind _ H).
  - unfold read_interface. destruct (Sz true (TSl (TPtr t))); [|now destruct H]. rewrite fill_stop by lia. reflexivity.
  - destruct e; try exact (False_ind _ H); unfold read_interface; (rewrite fill_stop by lia; reflexivity).
  - unfold read_interface. now rewrite andb_false_r.
Qed.
Lemma one_head f rest al : zlen (flat_map field_bytes f) < 2 ^ 32 ->
  (do! (sz, s) <- r_u32 (mkSt (mkRd (sized_bytes f ++ rest) None) al); call (RSlice (sz + 4)) s) = Ok (VBytes (tuple_bytes f), st0 rest al).
Proof. intro Sm. exact (sized_head f rest al Sm). Qed.
(** pointers to the variables to be filled: the first tuple panics, whatever it is *)
Theorem C132_pointers_refuted t p ps f ts rest : sendable f -> zlen ts < 2 ^ 32 - 1 -> ReadManyInto (Ptrs t (p :: ps)) (response (f :: ts) ++ rest) = Panic.
Proof.
  intros [_ Sm] L. unfold ReadManyInto. rewrite total_rest by (rewrite zlen_cons; lia). cbn [bind read_interface]. destruct (Sz true (TSl (TPtr t))); [|reflexivity].
  cbn [fill]. rewrite zlen_cons. pose proof (zlen_nn ts). destruct (Z.leb_spec (1 + zlen ts) 0); [lia|]. cbn [s_rd s_alloc flat_map]. rewrite <- app_assoc. unfold one_ptr. cbn [r0 r1 r_al r_err].
  pose proof (one_head f (flat_map sized_bytes ts ++ rest) [] Sm) as Q. destruct (r_u32 _) as [[sz s]| |]; cbn [bind] in Q |- *; try discriminate Q. rewrite Q. reflexivity.
Qed.
Lemma one_slice_panics e p x (f : tuple) rest : sendable (x :: f) -> one_slice e p (mkR2 (mkRd (sized_bytes (x :: f) ++ rest) None) (mkRd [] None) []) = Panic.
Proof.
  intros [K Sm]. unfold one_slice. cbn [r0 r1 r_al r_err].
  pose proof (one_head (x :: f) rest [] Sm) as Q. destruct (r_u32 (mkSt (mkRd _ None) [])) as [[sz s]| |]; cbn [bind] in Q |- *; try discriminate Q. rewrite Q.
  cbn [bind failed st0 s_rd r_err nums s_alloc]. pose proof (head_ok (x :: f) [] [] (proj1 K)) as HH. rewrite app_nil_r in HH. unfold st0 in HH at 1. rewrite HH. cbn [bind].
  unfold make_slice. pose proof (zlen_nn f). assert (E : zlen (x :: f : tuple) = 1 + zlen f) by apply zlen_cons. rewrite E.
  destruct (1 + zlen f <? 0) eqn:E1; [apply Z.ltb_lt in E1; lia|]. cbn [bind]. destruct (1 + zlen f =? 0) eqn:E2; [apply Z.eqb_eq in E2; lia|]. reflexivity.
Qed.
(** slices of numbers or strings: the first tuple panics if it has a field *)
Theorem C132_slices_refuted e p ps x (f : tuple) (ts : list tuple) rest : match e with TNum _ | TStr => True | _ => False end -> sendable (x :: f) -> zlen ts < 2 ^ 32 - 1 ->
  ReadManyInto (Slices e (p :: ps)) (response ((x :: f) :: ts) ++ rest) = Panic.
Proof.
  intros He Sm L. unfold ReadManyInto. rewrite total_rest by (rewrite zlen_cons; lia). cbn [bind read_interface]. set (n := zlen _). assert (N : 0 < n) by (unfold n; rewrite zlen_cons; pose proof (zlen_nn ts); lia). clearbody n.
  assert (G : gave (Slices e) n (fill (one_slice e) n (p :: ps) 0 (mkR2 (mkRd (flat_map sized_bytes ((x :: f) :: ts) ++ rest) None) (mkRd [] None) [])) = Panic); [|destruct e; try destruct He; exact G].
  cbn [fill]. destruct (n <=? 0) eqn:E; [apply Z.leb_le in E; lia|]. cbn [flat_map]. rewrite <- app_assoc. rewrite one_slice_panics by exact Sm. reflexivity.
Qed.
(** an []interface{} of pointers, one for each tuple: panics as soon as there is a tuple *)
Theorem C132_interfaces_refuted n f ts rest : (0 < n)%nat -> zlen ts < 2 ^ 32 - 1 -> ReadManyInto (Ifaces n) (response (f :: ts) ++ rest) = Panic.
Proof.
  intros N L. unfold ReadManyInto. rewrite total_rest by (rewrite zlen_cons; lia). cbn [bind read_interface]. rewrite zlen_cons. pose proof (zlen_nn ts).
  destruct (Z.ltb_spec 0 (Z.of_nat n)); [|lia]. destruct (Z.ltb_spec 0 (1 + zlen ts)); [reflexivity|lia].
Qed.

Lemma forall2_nth {A B} (R : A -> B -> Prop) : forall l m, length l = length m -> (forall i x y, nth_error l i = Some x -> nth_error m i = Some y -> R x y) -> Forall2 R l m.
Proof.
  induction l as [|x l IH]; intros [|y m] L H; try discriminate L; constructor; [exact (H 0%nat x y eq_refl eq_refl)|]. apply IH; [now injection L|]. intros i. exact (H (S i)).
Qed.

(** ** C133: tuples of another length than the variable *)
(** a struct takes the leading fields of the tuple. Fields it has in addition are left as they were, further fields of
    the tuple are ignored *)
Theorem C133_struct fs f olds al : good (TStruct fs) = true -> suits f fs -> shaped_flds fs olds -> sendable f ->
  exists news left al', ReadRawTuple (TStruct fs) olds (st0 (tuple_bytes f) al) = Ok (news, st0 left al') /\ filled f fs olds news.
Proof.
  intros G U S [[L _] _]. destruct (good_sz _ G) as (Gt & z & Z). unfold ReadRawTuple. rewrite Z. destruct (struct_suits fs f olds [] al false Gt U S L) as (news & left & al' & E & R).
  rewrite app_nil_r in E. exists news, (left ++ []), al'. now split.
Qed.
Theorem C133_struct_sized fs f olds rest al : good (TStruct fs) = true -> suits f fs -> shaped_flds fs olds -> sendable f ->
  exists news al', ReadSizedTuple (TStruct fs) olds (st0 (sized_bytes f ++ rest) al) = Ok (news, st0 rest al') /\ filled f fs olds news.
Proof.
  intros G U S Sm. destruct (C133_struct fs f olds al G U S Sm) as (news & left & al' & E & R). exists news, al'. split; [|exact R].
  unfold ReadSizedTuple. destruct Sm as [_ Sm]. unfold sized_bytes. rewrite <- app_assoc. rewrite r_u32_ok by (split; [apply zlen_nn|exact Sm]). cbn [bind failed st0 s_rd r_err].
  replace (zlen (flat_map field_bytes f) + 4) with (zlen (tuple_bytes f)) by (rewrite tuple_len; lia). rewrite slice_ok. cbn [bind nums]. unfold sub. cbn [s_alloc st0]. unfold st0 in E at 1. rewrite E. reflexivity.
Qed.
(** ... and the tuples after it are read all the same *)
Theorem C133_many fs ts old rest : good (TStruct fs) = true -> Forall (fun f => suits f fs) ts -> Forall sendable ts -> zlen ts < 2 ^ 32 ->
  exists news al, ReadManyInto (Var (TSl (TStruct fs)) old) (response ts ++ rest) = Ok (mkGot (Var (TSl (TStruct fs)) news) (zlen ts) (zlen ts) None al) /\
    Forall2 (fun f new => filled f fs (zero (TStruct fs)) new) ts news.
Proof.
  intros G U Sm L. destruct (good_sz _ G) as (Gt & z & Z). unfold ReadManyInto. rewrite total_rest by exact L. cbn [bind read_interface read_var]. unfold read_slice. rewrite Z. cbn [SboxModel.readable].
  unfold make_slice. pose proof (zlen_nn ts) as NN. destruct (Z.ltb_spec (zlen ts) 0); [lia|]. cbn [bind s_rd s_alloc]. rewrite len_nat.
  destruct (fill_reads (one_tuple (TStruct fs)) (fun o => o = zero (TStruct fs)) (fun f o x => filled f fs o x) ts (repeat (zero (TStruct fs)) (length ts)) 0 [] rest ([] ++ [zlen ts])) as (news & b2 & al & rest' & E & Ln & P).
  - rewrite Forall_forall in *. intros f Hf. apply one_tuple_reads; [apply (Sm f Hf)|]. intros o a ->. destruct (Sm f Hf) as [[K _] _].
    destruct (struct_suits fs f (zero (TStruct fs)) [] a false Gt (U f Hf)) as (x & left & al' & E & R); [exact (proj2 zero_shaped fs)|exact K|]. rewrite app_nil_r in E. exists x, (left ++ []), al'. now split.
  - rewrite Forall_forall. intros x Hx. now apply repeat_spec in Hx.
  - rewrite repeat_length, Nat.min_id in Ln. rewrite E. unfold gave. cbn [bind r0 r_err r_al]. exists news, al. split.
    + rewrite skipn_all2 by (rewrite repeat_length; lia). rewrite app_nil_r. unfold zlen. rewrite Ln. now rewrite Z.add_0_l.
    + apply forall2_nth; [exact (eq_sym Ln)|]. intros i f x Hf Hx. apply (P i f (zero (TStruct fs)) x Hf); [|exact Hx].
      rewrite nth_error_repeat; [reflexivity|]. apply nth_error_Some. congruence.
Qed.
(** an array must not be shorter than the tuple: reading then panics, whatever the bytes are that follow *)
Theorem C133_array_refuted n t old l b al : is_u8 t = false -> length old = n -> Z.of_nat n < l < 2 ^ 32 -> forall x, ReadRawTuple (TArr n t) old (st0 (le_enc 4 l ++ b) al) <> Ok x.
Proof.
  intros U Ln L x. unfold ReadRawTuple. destruct (Sz true (TArr n t)); [|discriminate]. rewrite (proj1 (sb_read_list t U n)), r_u32_ok by (unfold u32_ok; lia). cbn [bind].
  assert (Q : @length (val t) old = n) by exact Ln. match goal with |- (if ?c then _ else _) <> _ => destruct c eqn:C end.
  - apply rd_list_long. rewrite Q. lia.
  - exfalso. assert (C' : (@zlen (val t) old <=? l) = false) by exact C. apply Z.leb_gt in C'. unfold zlen in C'. rewrite Q in C'. lia.
Qed.
(** a tuple with fewer fields is reported as an error, and the array is left alone *)
Theorem C133_array_fewer_partial n t old l b al : is_u8 t = false -> Sz true (TArr n t) <> None -> length old = n -> 0 <= l < Z.of_nat n -> l < 2 ^ 32 ->
  exists s, ReadRawTuple (TArr n t) old (st0 (le_enc 4 l ++ b) al) = Ok (old, s) /\ r_err (s_rd s) <> None.
Proof.
  intros U H Ln L L2. unfold ReadRawTuple. destruct (Sz true (TArr n t)); [|now destruct H]. rewrite (proj1 (sb_read_list t U n)), r_u32_ok by (unfold u32_ok; lia). cbn [bind].
  assert (Q : @length (val t) old = n) by exact Ln. match goal with |- exists s, (if ?c then _ else _) = _ /\ _ => destruct c eqn:C end.
  - exfalso. assert (C' : (@zlen (val t) old <=? l) = true) by exact C. apply Z.leb_le in C'. unfold zlen in C'. rewrite Q in C'. lia.
  - eexists. split; [reflexivity|]. discriminate.
Qed.
(** more fields than the array has: the crash of the program *)
Theorem C133_array_crash_refuted : ReadRawTuple (TArr 2 (TNum U32)) [0; 0] (st0 (tuple_bytes [[1; 0; 0; 0]; [2; 0; 0; 0]; [3; 0; 0; 0]]) []) = Panic.
Proof. vm_compute. reflexivity. Qed.

(** ** C134: a tuple of arbitrary bytes *)
Theorem C134_raw_partial t old b al : tuple_safe t = true -> Sz true t <> None -> bytes_ok b -> exists x s, ReadRawTuple t old (mkSt (mkRd b None) al) = Ok (x, s).
Proof.
  intros F H B. unfold ReadRawTuple. destruct (Sz true t); [|now destruct H]. destruct (sb_read_runs t old (mkSt (mkRd b None) al) F B) as (x & s & E & _). now exists x, s.
Qed.
Theorem C134_first_partial t old b : tuple_safe t = true -> Sz true t <> None -> bytes_ok b -> exists x, ReadFirst t old b = Ok x.
Proof.
  intros F H B. unfold ReadFirst. destruct (r_u32_runs (mkSt (mkRd b None) []) B) as (n & s & E & M & N). rewrite E. cbn [bind]. destruct (0 <? n); [|eauto].
  destruct (r_u32_runs s (oWb _ _ M)) as (sz & s1 & E1 & M1 & N1). rewrite E1. cbn [bind]. destruct (r_err (s_rd s1)); [eauto|].
  destruct (take_runs (sz + 4) s1 ltac:(lia) (oWb _ _ M1)) as (c & s2 & E2 & M2 & B2). unfold take in E2. destruct (call (RSlice (sz + 4)) s1) as [[v s3]| |]; cbn [bind] in E2; try discriminate E2. injection E2 as <- <-. cbn [bind].
  unfold sub. destruct (C134_raw_partial t old (nums v) (s_alloc s3) F H B2) as (x & q & ->). cbn [bind]. eauto.
Qed.
Lemma one_tuple_runs t old r : tuple_safe t = true -> bytes_ok (r_body (r0 r)) -> exists x e q, one_tuple t old r = Ok (x, e, q) /\ bytes_ok (r_body (r0 q)).
Proof.
  intros F B. unfold one_tuple. destruct (r_err (r0 r)); [eexists _, _, _; split; [reflexivity|exact B]|].
  destruct (r_u32_runs (mkSt (r0 r) (r_al r)) B) as (sz & s1 & E1 & M1 & N1). rewrite E1. cbn [bind].
  destruct (take_runs (sz + 4) s1 ltac:(lia) (oWb _ _ M1)) as (c & s2 & E2 & M2 & B2). unfold take in E2. destruct (call (RSlice (sz + 4)) s1) as [[v s3]| |]; cbn [bind] in E2; try discriminate E2. injection E2 as <- <-. cbn [bind].
  destruct (failed s3); [eexists _, _, _; split; [reflexivity|exact (oWb _ _ M2)]|].
  destruct (sb_read_runs t old (mkSt (mkRd (nums v) (r_err (r1 r))) (s_alloc s3)) F B2) as (x & s & -> & _). cbn [bind]. eexists _, _, _. split; [reflexivity|exact (oWb _ _ M2)].
Qed.
Lemma fill_runs t : tuple_safe t = true -> forall old k n r, bytes_ok (r_body (r0 r)) -> exists x, fill (one_tuple t) k old n r = Ok x.
Proof.
  intro F. induction old as [|o old IH]; intros k n r B; cbn [fill]; [eauto|]. destruct (k <=? 0); [eauto|].
  destruct (one_tuple_runs t o r F B) as (x & e & q & -> & B2). cbn [bind]. destruct e; [eauto|]. destruct (IH (k - 1) (n + 1) q B2) as [[[ys m] r2] ->]. cbn [bind]. eauto.
Qed.
(** into a slice or an array of such a type, or one such value *)
Theorem C134_many_partial t n olds old b : tuple_safe t = true -> Sz true t <> None -> SboxModel.readable t = true -> bytes_ok b ->
  (exists x, ReadManyInto (Var (TSl t) old) b = Ok x) /\ (exists x, ReadManyInto (Var (TArr n t) olds) b = Ok x).
Proof.
  intros F H R B. unfold ReadManyInto. destruct (r_u32_runs (mkSt (mkRd b None) []) B) as (m & s & E & M & N). rewrite E. cbn [bind read_interface read_var]. unfold read_slice, read_array.
  destruct (Sz true t); [|now destruct H]. rewrite R. unfold make_slice. destruct (Z.ltb_spec m 0); [lia|]. cbn [bind s_rd s_alloc]. unfold gave. split.
  - destruct (fill_runs t F (repeat (zero t) (Z.to_nat m)) m 0 (mkR2 (s_rd s) (mkRd [] None) (s_alloc s ++ [m])) (oWb _ _ M)) as [[[l k] q] ->]. cbn [bind]. eauto.
  - destruct (fill_runs t F olds m 0 (mkR2 (s_rd s) (mkRd [] None) (s_alloc s)) (oWb _ _ M)) as [[[l k] q] ->]. cbn [bind]. eauto.
Qed.
(** the length of a string is taken as a signed number: -1 here *)
Definition bad_length : list Z := [129; 255; 255; 255; 255; 255; 255; 255; 255; 127].
Theorem C134_string_refuted rest old : ReadRawTuple TStr old (st0 (le_enc 4 1 ++ bad_length ++ rest) []) = Panic /\
  ReadRawTuple (TSl (TNum U8)) old (st0 (le_enc 4 1 ++ bad_length ++ rest) []) = Panic.
Proof. destruct rest; split; reflexivity. Qed.
(** the client of a server that sends this crashes *)
Theorem C134_many_refuted old rest : ReadManyInto (Var (TSl TStr) old) (le_enc 4 1 ++ le_enc 4 10 ++ le_enc 4 1 ++ bad_length ++ rest) = Panic.
Proof.
  unfold ReadManyInto. change (mkSt (mkRd ?b None) ?a) with (st0 b a). rewrite r_u32_ok by (unfold u32_ok; lia). cbn [bind read_interface read_var].
  change (read_slice TStr 1 ?s) with (gave (Var (TSl TStr)) 1 (fill (one_tuple TStr) 1 [[]] 0 (mkR2 (s_rd s) (mkRd [] None) (s_alloc s ++ [1])))). cbn [fill]. change (1 <=? 0) with false. cbn [s_rd s_alloc st0].
  assert (E : one_tuple TStr [] (mkR2 (mkRd (le_enc 4 10 ++ le_enc 4 1 ++ bad_length ++ rest) None) (mkRd [] None) ([] ++ [1])) = Panic); [|cbn [val] in *; now rewrite E].
  unfold one_tuple. cbn [r0 r1 r_al r_err]. change (mkSt (mkRd ?b None) ?a) with (st0 b a). rewrite r_u32_ok by (unfold u32_ok; lia). cbn [bind].
  rewrite (app_assoc (le_enc 4 1)). change (10 + 4) with (zlen (le_enc 4 1 ++ bad_length)). rewrite slice_ok. reflexivity.
Qed.

(** ** Cases that meet the hypotheses *)
Definition user : flds := FCons TgAuto (TNum U32) (FCons TgAuto TStr (FCons TgAuto (TNum U16) FNil)).
Definition bob : tuple := [[7; 0; 0; 0]; [98; 111; 98]].
Definition eve : tuple := [[9; 0; 0; 0]; [101]; [1; 2]; [3; 4; 5]].
Ltac small := unfold sendable, tuple_ok, bytes_ok, byte_ok; cbn; repeat (split || constructor); try lia.
Lemma num_field k n b : kind_ok k n -> lay false (TNum k) n = b -> zlen b < 2 ^ 63 -> exists v : val (TNum k), ffit (TNum k) v /\ lay false (TNum k) v = b.
Proof. intros K <- L. exists n. split; [|reflexivity]. split; [exact K|]. split; [exact L|exact Logic.I]. Qed.
Lemma str_field b : bytes_ok b -> zlen b < 2 ^ 32 -> exists v : val TStr, ffit TStr v /\ lay false TStr v = b.
Proof. intros K L. exists b. split; [|reflexivity]. split; [now split|]. split; [cbn; lia|exact Logic.I]. Qed.
Example C133_example_meets : good (TStruct user) = true /\ suits bob user /\ suits eve user /\ sendable bob /\ sendable eve /\ shaped_flds user (zeros user).
Proof.
  split; [reflexivity|]. split; [|split; [|split; [|split]]].
  - split; [apply (num_field U32 7); [cbn; lia|reflexivity|reflexivity]|]. split; [|exact Logic.I]. apply str_field; [|reflexivity]. unfold bytes_ok, byte_ok. repeat constructor; lia.
  - split; [apply (num_field U32 9); [cbn; lia|reflexivity|reflexivity]|]. split; [|split; [apply (num_field U16 513); [cbn; lia|reflexivity|reflexivity]|exact Logic.I]].
    apply str_field; [|reflexivity]. unfold bytes_ok, byte_ok. repeat constructor; lia.
  - small.
  - small.
  - exact (proj2 zero_shaped user).
Qed.
(** what these leave in a variable that held 1, "x", 77: the first tuple does not touch 77, of the second the fourth field is ignored *)
Example C133_example_bob : exists s, ReadRawTuple (TStruct user) (1, ([120], (77, tt))) (st0 (tuple_bytes bob) []) = Ok ((7, ([98; 111; 98], (77, tt))), s).
Proof. eexists. vm_compute. reflexivity. Qed.
Example C133_example_eve : exists s, ReadRawTuple (TStruct user) (1, ([120], (77, tt))) (st0 (tuple_bytes eve) []) = Ok ((9, ([101], (513, tt))), s).
Proof. eexists. vm_compute. reflexivity. Qed.
Example C131_example_meets : good (TNum U32) = true /\ SboxModel.readable (TNum U32) = true /\ single (TNum U32) = true /\ shaped (TArr 2 (TNum U32)) [5; 6] /\
  Forall (fit (TNum U32)) [1; 2; 3] /\ Forall (fun v => sendable (fields (TNum U32) v)) [1; 2; 3].
Proof.
  split; [reflexivity|split; [reflexivity|split; [reflexivity|split; [|split]]]].
  - cbn. repeat constructor.
  - unfold fit, tuple_fit, fits, kind_ok. repeat constructor; small.
  - repeat constructor; small.
Qed.
(** three tuples into an array of two, one tuple into an array of two *)
Example C131_example_more : exists al, ReadManyInto (Var (TArr 2 (TNum U32)) [5; 6]) (response (map (fields (TNum U32)) [1; 2; 3])) = Ok (mkGot (Var (TArr 2 (TNum U32)) [1; 2]) 2 3 None al).
Proof. eexists. vm_compute. reflexivity. Qed.
Example C131_example_fewer : exists al, ReadManyInto (Var (TArr 2 (TNum U32)) [5; 6]) (response (map (fields (TNum U32)) [1])) = Ok (mkGot (Var (TArr 2 (TNum U32)) [1; 6]) 1 1 None al).
Proof. eexists. vm_compute. reflexivity. Qed.
Example C132_example : ReadManyInto (Ptrs (TNum U32) [Some 0; Some 0]) (response (map (fields (TNum U32)) [1])) = Panic /\
  ReadManyInto (Slices TStr [[]]) (response [bob]) = Panic /\ Sz true (TSl (TPtr (TNum U32))) <> None.
Proof. split; [|split]; vm_compute; congruence. Qed.
Example C134_example : tuple_safe (TStruct (FCons TgAuto (TNum U32) (FCons TgAuto (TArr 4 (TNum U16)) FNil))) = true /\
  Sz true (TStruct (FCons TgAuto (TNum U32) (FCons TgAuto (TArr 4 (TNum U16)) FNil))) <> None /\ tuple_safe (TSl (TNum I64)) = true /\ tuple_safe TStr = false.
Proof. vm_compute. repeat split; congruence. Qed.

Print Assumptions C131_array.
Print Assumptions C131_slice.
Print Assumptions C131_single_partial.
Print Assumptions C131_single_none_refuted.
Print Assumptions C131_array_any.
Print Assumptions C132_none_partial.
Print Assumptions C132_pointers_refuted.
Print Assumptions C132_slices_refuted.
Print Assumptions C132_interfaces_refuted.
Print Assumptions C133_struct.
Print Assumptions C133_struct_sized.
Print Assumptions C133_many.
Print Assumptions C133_array_refuted.
Print Assumptions C133_array_fewer_partial.
Print Assumptions C133_array_crash_refuted.
Print Assumptions C134_raw_partial.
Print Assumptions C134_first_partial.
Print Assumptions C134_many_partial.
Print Assumptions C134_string_refuted.
Print Assumptions C134_many_refuted.
