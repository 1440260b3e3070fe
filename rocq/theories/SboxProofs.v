(** Proofs about sbox tuples and requests. *)
From Coq Require Import ZArith List Bool Arith Lia.
Import ListNotations.
From Verif Require Import Base PrimModel PrimSpec PrimProofs PrimWriter PrimProps CodecModel CodecSpec CodecProofs CodecRead SboxModel SboxSpec.
Open Scope Z_scope.

(** ** One field *)
Lemma field_pre b : pre PBer (zlen b) ++ b = field_bytes b. Proof. reflexivity. Qed.
Lemma sized_ok addr t v : size_ok addr t = true -> ffit t v -> sized addr t v = Ok (field_bytes (lay false t v)).
Proof.
  intros G (F & L & B). pose proof (proj2 enc_ok (FCons (TgSize PBer) t FNil) addr false (v, tt)) as E.
  rewrite goodF_cons in E. cbn [not_i64 goodF] in E. rewrite G in E. specialize (E eq_refl).
  assert (FF : fits_flds (FCons (TgSize PBer) t FNil) (v, tt)) by (cbn [fits_flds pfits]; tauto). specialize (E FF).
  cbn [enc_flds lays drop dropped] in E. change (with_size PBer (size_of t v) (enc false addr t v)) with (sized addr t v) in E.
  destruct (sized addr t v) as [a| |]; cbn [bind] in E; try discriminate E.
  injection E as E. rewrite !app_nil_r in E. now rewrite E.
Qed.
Lemma rsized_fdec t : rsized t = fdec Fixed (TgSize PBer) t. Proof. reflexivity. Qed.
Lemma rsized_ok addr t v old rest : size_ok addr t = true -> ffit t v -> shaped t old ->
  Dec (same t) (rsized t) v old (field_bytes (lay false t v)) rest.
Proof.
  intros G (F & L & B) S. rewrite rsized_fdec. destruct (proj1 dec_ok t) as [D C].
  exact (field_ok addr false (TgSize PBer) t v old rest D C G (conj F (conj L B)) S ltac:(discriminate)).
Qed.
Lemma put_u32 n : u32_ok n -> put (WFixed U32 n) = le_enc 4 n.
Proof.
  intros H. rewrite put_fixed; [|unfold kind_ok; cbn; unfold u32_ok in H; lia]. unfold layout. destruct (Z.ltb_spec n 0); [unfold u32_ok in H; lia|reflexivity].
Qed.
Lemma put_cnt {A} (l : list A) : zlen l < 2 ^ 32 -> put (IntUint32 (zlen l)) = le_enc 4 (zlen l).
Proof. intro H. apply put_u32. split; [apply zlen_nn|exact H]. Qed.
Lemma r_u32_ok n rest al : u32_ok n -> r_u32 (st0 (le_enc 4 n ++ rest) al) = Ok (n, st0 rest al).
Proof.
  intro H. unfold r_u32. replace (le_enc 4 n) with (layout U32 n). 2:{ unfold layout. destruct (Z.ltb_spec n 0); [unfold u32_ok in H; lia|reflexivity]. }
  rewrite call_fixed; [reflexivity|]. unfold kind_ok. cbn. unfold u32_ok in H. lia.
Qed.
Lemma to_int_small n : 0 <= n < 2 ^ 63 -> to_int n = n.
Proof.
  intro H. unfold to_int, of_bits. cbn [signed width andb]. destruct (Z.leb_spec (256 ^ Z.of_nat 8 / 2) n); [|reflexivity]. cbn in H0. lia.
Qed.
Lemma r_intvar_ok n rest al : 0 <= n < 2 ^ 63 -> r_intvar (st0 (var_bytes n ++ rest) al) = Ok (n, st0 rest al).
Proof. intro H. unfold r_intvar. rewrite call_var by lia. cbn [bind num]. now rewrite to_int_small. Qed.
Lemma prefix_var n : 0 <= n < 2 ^ 63 -> prefix PBer n = var_bytes n.
Proof. intro H. exact (prefix_pre PBer n eq_refl (proj1 H) (proj2 H)). Qed.
Lemma bytes_field (b : list Z) : zlen b < 2 ^ 63 -> prefix PBer (zlen b) ++ put (WBytes b) = field_bytes b.
Proof. intro H. rewrite prefix_var by (split; [apply zlen_nn|exact H]). now rewrite put_bytes. Qed.
Lemma num_field k v : kind_ok k v -> prefix PBer (Z.of_nat (width k)) ++ put (WFixed k v) = field_bytes (layout k v).
Proof.
  intro H. rewrite prefix_var by (destruct k; cbn; lia). rewrite put_fixed by exact H. unfold field_bytes. f_equal. unfold zlen, layout. now rewrite le_enc_length.
Qed.
Lemma lay_bytes v : fits (TSl (TNum U8)) v -> lay false (TSl (TNum U8)) v = v.
Proof. intros [_ F]. cbn [lay app]. now apply bytes_u8. Qed.

(** ** Writing a tuple *)
Lemma zlen_map {A B} (f : A -> B) l : zlen (map f l) = zlen l. Proof. unfold zlen. now rewrite map_length. Qed.
Lemma sb_flds_ok addr : forall fs vs, sfields_good addr fs = true -> sfields_fit fs vs ->
  sb_flds addr fs vs = Ok (flat_map field_bytes (struct_fields fs vs)) /\ kept fs = length (struct_fields fs vs).
Proof.
  induction fs as [|tg t fs IH]; intros vs G F; [split; reflexivity|]. destruct vs as [v vs]. destruct F as [F1 F2].
  cbn [sfields_good] in G. apply andb_prop in G. destruct G as [G1 G2]. destruct (IH vs G2 F2) as [E K]. cbn [sb_flds kept struct_fields].
  assert (X : match tg with TgSkip => drop false tg t = true | _ => drop false tg t = false /\ size_ok addr t = true end).
  { destruct tg; [reflexivity|..]; bools; (split; [assumption|assumption]). }
  destruct tg; [rewrite X; split; [exact E|exact K]|..]; destruct X as [-> X]; rewrite (sized_ok addr t v X F1), E; cbn [bind flat_map length];
  (split; [reflexivity|now rewrite K]).
Qed.
Lemma enc_fields {A B} (f : B -> list Z) (g : A -> B) l : flat_map (fun x => f (g x)) l = flat_map f (map g l).
Proof. induction l; [reflexivity|]. cbn. now rewrite IHl. Qed.
Definition is_u8 (t : ty) : bool := match t with TNum U8 => true | _ => false end.
Lemma sb_write_list addr t : is_u8 t = false -> forall n,
  sb_write addr (TArr n t) = (fun v => do! b <- enc_list (sized addr t) v; Ok (put (IntUint32 (zlen v)) ++ b)) /\
  sb_write addr (TSl t) = (fun v => do! b <- enc_list (sized true t) v; Ok (put (IntUint32 (zlen v)) ++ b)) /\
  fields (TArr n t) = (fun v => map (lay false t) v) /\ fields (TSl t) = (fun v => map (lay false t) v) /\
  tuple_good addr (TArr n t) = size_ok addr t /\ tuple_good addr (TSl t) = size_ok true t /\
  tuple_fit (TArr n t) = (fun v => length v = n /\ Forall (ffit t) v) /\ tuple_fit (TSl t) = Forall (ffit t).
Proof. intros H n. destruct t as [k| | | | | |]; try discriminate; [destruct k; try discriminate|..]; repeat (split; [reflexivity|]); reflexivity. Qed.
Lemma many_ok addr t v : size_ok addr t = true -> Forall (ffit t) v -> zlen v < 2 ^ 32 ->
  (do! b <- enc_list (sized addr t) v; Ok (put (IntUint32 (zlen v)) ++ b)) = Ok (tuple_bytes (map (lay false t) v)).
Proof.
  intros G F L. rewrite (enc_list_ok _ (fun x => field_bytes (lay false t x))); [|intros x Hx; apply sized_ok; [exact G|rewrite Forall_forall in F; now apply F]].
  cbn [bind]. rewrite (put_cnt v L), enc_fields. unfold tuple_bytes. rewrite (zlen_map (lay false t) v). reflexivity.
Qed.

Lemma tuple_one f : tuple_bytes [f] = le_enc 4 1 ++ field_bytes f.
Proof. unfold tuple_bytes. cbn [flat_map]. now rewrite app_nil_r. Qed.
Lemma bytes_arr_ok addr n : size_ok addr (TArr n (TNum U8)) = true.
Proof. cbn [size_ok goodA elem_ok]. unfold truthful. cbn [Sz fixed_size width]. cbn [Z.leb Z.compare Z.of_nat]. now rewrite Z.eqb_refl. Qed.
Lemma one_ok addr t v : size_ok addr t = true -> fits t v -> ber_sizes_right t v -> tuple_ok [lay false t v] ->
  (do! b <- sized addr t v; Ok (put (WFixed U32 1) ++ b)) = Ok (tuple_bytes [lay false t v]).
Proof.
  intros G F B [_ L]. apply Forall_inv in L. rewrite (sized_ok addr t v G (conj F (conj L B))). cbn [bind]. rewrite put_u32 by (split; reflexivity || discriminate).
  now rewrite tuple_one.
Qed.
Lemma u8_dec t : t = TNum U8 \/ is_u8 t = false.
Proof. destruct t as [k| | | | | |]; auto. destruct k; auto. Qed.
Lemma sb_write_ok : forall t addr v, tuple_good addr t = true -> tuple_fit t v -> tuple_ok (fields t v) -> not_nil t v ->
  sb_write addr t v = Ok (tuple_bytes (fields t v)).
Proof.
  induction t as [k|k| |n t IH|t IH|t IH|fs]; intros addr v G F K N.
  - cbn [sb_write fields]. apply one_ok; [reflexivity|exact F|exact I|exact K].
  - discriminate.
  - cbn [sb_write fields]. change (put (IntUint32 1)) with (put (WFixed U32 1)). apply one_ok; [reflexivity|exact F|exact I|exact K].
  - destruct (u8_dec t) as [->|U].
    + cbn [sb_write fields]. change (put (IntUint32 1)) with (put (WFixed U32 1)). apply one_ok; [apply bytes_arr_ok|exact F|exact I|exact K].
    + destruct (sb_write_list addr t U n) as (E1 & _ & E2 & _ & E3 & _ & E4 & _). rewrite E3 in G. rewrite E4 in F. rewrite E2 in *. rewrite E1.
      apply many_ok; [exact G|apply F|]. destruct K as [K _]. now rewrite zlen_map in K.
  - destruct (u8_dec t) as [->|U].
    + cbn [sb_write fields]. change (put (IntUint32 1)) with (put (WFixed U32 1)). apply one_ok; [reflexivity|exact F|exact I|exact K].
    + destruct (sb_write_list addr t U 0) as (_ & E1 & _ & E2 & _ & E3 & _ & E4). rewrite E3 in G. rewrite E4 in F. rewrite E2 in *. rewrite E1.
      apply many_ok; [exact G|exact F|]. destruct K as [K _]. now rewrite zlen_map in K.
  - destruct v as [v|]; [|destruct N]. cbn [sb_write fields]. apply IH; assumption.
  - cbn [sb_write fields]. destruct (sb_flds_ok addr fs v G F) as [-> ->]. cbn [bind].
    change (Z.of_nat (length (struct_fields fs v))) with (zlen (struct_fields fs v)). rewrite put_cnt by apply K. reflexivity.
Qed.
Lemma write_one_ok t v : good t = true -> fit t v -> write_one t v = Ok (tuple_bytes (fields t v)).
Proof.
  intros G (F & K & N). unfold good in G. apply andb_prop in G. destruct G as [G P].
  assert (S : exists z, Sz false t = Some z) by (unfold fill_ok in P; destruct (Sz false t); [eauto|discriminate]). destruct S as [z S].
  assert (X : sb_write false t v = Ok (tuple_bytes (fields t v))) by (now apply sb_write_ok).
  destruct t as [k|k| |n t|t|t|fs]; try (unfold write_one; rewrite S; exact X).
  - cbn [write_one fields]. rewrite tuple_one. rewrite (put_u32 1) by (split; reflexivity || discriminate). cbn [lay]. rewrite <- num_field by exact F.
    f_equal. f_equal. f_equal. rewrite prefix_var by (destruct k; cbn; lia). destruct k; reflexivity.
  - cbn [write_one fields]. rewrite tuple_one. rewrite (put_u32 1) by (split; reflexivity || discriminate). rewrite bytes_field; [reflexivity|].
    destruct K as [_ K]. now apply Forall_inv in K.
  - destruct (u8_dec t) as [->|U].
    + cbn [write_one fields]. rewrite tuple_one. rewrite (put_u32 1) by (split; reflexivity || discriminate).
      destruct K as [_ K]. apply Forall_inv in K. rewrite lay_bytes in * by exact F. now rewrite bytes_field.
    + assert (E : write_one (TSl t) v = match Sz false (TSl t) with None => Panic | Some _ => sb_write false (TSl t) v end).
      { destruct t as [k| | | | | |]; try reflexivity. destruct k; try reflexivity. discriminate. }
      rewrite E, S. exact X.
Qed.
Lemma with_size_ok i : item_good i -> WriteWithSize i = Ok (field_bytes (item_field i)).
Proof.
  destruct i as [|t v]; [intros []|]. intros (G & P & F). unfold WriteWithSize, item_field.
  assert (S : exists z, Sz false t = Some z) by (unfold fill_ok in P; destruct (Sz false t); [eauto|discriminate]). destruct S as [z S].
  pose proof (sized_ok false t v G F) as X. destruct F as (F & L & B).
  destruct t as [k|k| |n t|t|t|fs]; try (rewrite S; exact X).
  - cbn [lay]. rewrite num_field by exact F. reflexivity.
  - cbn [lay app] in *. now rewrite bytes_field.
  - destruct (u8_dec t) as [->|U].
    + rewrite lay_bytes in * by exact F. now rewrite bytes_field.
    + destruct t as [k| | | | | |]; try (rewrite S; exact X). destruct k; try discriminate; rewrite S; exact X.
Qed.
Lemma item_ok_size l : Forall item_good l -> zlen l < 2 ^ 32 -> tuple_ok (map item_field l).
Proof.
  intros F L. split; [now rewrite zlen_map|]. apply Forall_map. eapply Forall_impl; [|exact F]. intros [|t v]; [intros []|]. intros (_ & _ & _ & H & _). exact H.
Qed.
Lemma WriteTuple_ok a : arg_good a -> WriteTuple a = Ok (tuple_bytes (arg_tuple a)) /\ tuple_ok (arg_tuple a).
Proof.
  destruct a as [[|t v]|l]; [intros []|intros [G F]|intros [L F]]; cbn [WriteTuple arg_tuple].
  - split; [now apply write_one_ok|apply F].
  - split; [|now apply item_ok_size]. rewrite (enc_list_ok _ (fun i => field_bytes (item_field i))); [|intros x Hx; rewrite Forall_forall in F; now apply with_size_ok, F].
    cbn [bind]. rewrite put_cnt by exact L. rewrite enc_fields. unfold tuple_bytes. now rewrite zlen_map.
Qed.

(** ** Reading a tuple *)
Lemma zlen_cons {A} (x : A) l : zlen (x :: l) = 1 + zlen l. Proof. unfold zlen. cbn [length]. lia. Qed.
Lemma rd_list_ok addr t : size_ok addr t = true -> forall v old rest, Forall (ffit t) v -> Forall (shaped t) old -> length old = length v ->
  Dec (Forall2 (same t)) (rd_list t (length v)) v old (flat_map field_bytes (map (lay false t) v)) rest.
Proof.
  intro G. induction v as [|x v IH]; intros old rest F S L al; destruct old as [|o old]; try discriminate L.
  - exists [], al. split; [reflexivity|constructor].
  - apply Forall_cons_iff in F, S. destruct F as [F1 F], S as [S1 S]. injection L as L.
    destruct (rsized_ok addr t x o (flat_map field_bytes (map (lay false t) v) ++ rest) G F1 S1 al) as (y & al1 & E1 & R1).
    destruct (IH old rest F S L al1) as (ys & al2 & E2 & R2). exists (y :: ys), al2. split; [|now constructor].
    cbn [rd_list length map flat_map]. rewrite <- app_assoc, E1. cbn [bind]. rewrite E2. reflexivity.
Qed.
Lemma rd_flds_ok addr : forall fs vs olds rest, sfields_good addr fs = true -> sfields_fit fs vs -> shaped_flds fs olds ->
  Dec (same_flds fs) (rd_flds (zlen (struct_fields fs vs)) fs) vs olds (flat_map field_bytes (struct_fields fs vs)) rest.
Proof.
  induction fs as [|tg t fs IH]; intros vs olds rest G F S al.
  - exists tt, al. split; [reflexivity|exact I].
  - destruct vs as [v vs], olds as [o olds]. destruct F as [F1 F2], S as [S1 S2]. cbn [sfields_good] in G. apply andb_prop in G. destruct G as [G1 G2].
    cbn [rd_flds struct_fields].
    assert (X : match tg with TgSkip => drop true tg t = true | _ => drop true tg t = false /\ size_ok addr t = true end).
    { destruct tg; [reflexivity|..]; bools; (split; [assumption|assumption]). }
    destruct tg as [| |p|p|].
    { rewrite X. destruct (IH vs olds rest G2 F2 S2 al) as (xs & al1 & E & R). exists (o, xs), al1. rewrite E. split; [reflexivity|split; [exact I|exact R]]. }
    all: destruct X as [-> X];
      destruct (rsized_ok addr t v o (flat_map field_bytes (struct_fields fs vs) ++ rest) X F1 S1 al) as (y & al1 & E1 & R1);
      destruct (IH vs olds rest G2 F2 S2 al1) as (xs & al2 & E & R); exists (y, xs), al2; (split; [|split; assumption]);
      rewrite zlen_cons; (destruct (Z.ltb_spec 0 (1 + zlen (struct_fields fs vs))) as [_|Q]; [|pose proof (zlen_nn (struct_fields fs vs)); lia]);
      cbn [flat_map]; rewrite <- app_assoc, E1; cbn [bind]; rewrite Z.add_simpl_l, E; reflexivity.
Qed.
Lemma u1 : u32_ok 1. Proof. split; reflexivity || discriminate. Qed.
Lemma head_ok (f : tuple) rest al : zlen f < 2 ^ 32 -> r_u32 (st0 (tuple_bytes f ++ rest) al) = Ok (zlen f, st0 (flat_map field_bytes f ++ rest) al).
Proof. intro L. unfold tuple_bytes. rewrite <- app_assoc. apply r_u32_ok. split; [apply zlen_nn|exact L]. Qed.
Lemma one_field_ok f rest al : zlen f < 2 ^ 63 -> one_field (zlen f) (st0 (tuple_bytes [f] ++ rest) al) = Ok (true, st0 (f ++ rest) al).
Proof.
  intro L. unfold one_field. rewrite head_ok by reflexivity. cbn [bind zlen length Z.of_nat Z.leb Z.compare flat_map]. unfold field_bytes. rewrite app_nil_r, <- app_assoc.
  rewrite r_intvar_ok by (split; [apply zlen_nn|exact L]). cbn [bind]. now rewrite Z.eqb_refl.
Qed.
Lemma sb_read_list t : is_u8 t = false -> forall n,
  sb_read (TArr n t) = (fun old s => do! (l, s) <- r_u32 s; if zlen old <=? l then rd_list t (Z.to_nat l) old s else Ok (old, fail s (ECodec 13))) /\
  sb_read (TSl t) = (fun old s => do! (l, s) <- r_u32 s; do! (old, s) <- make_slice t l s; rd_list t (Z.to_nat l) old s).
Proof. intros H n. destruct t as [k| | | | | |]; try discriminate; [destruct k; try discriminate|..]; split; reflexivity. Qed.
Lemma len_nat {A} (l : list A) : Z.to_nat (zlen l) = length l. Proof. apply Nat2Z.id. Qed.
Lemma make_slice_ok t (l : list (val t)) s : make_slice t (zlen l) s = Ok (repeat (zero t) (length l), mkSt (s_rd s) (s_alloc s ++ [zlen l])).
Proof. unfold make_slice. destruct (Z.ltb_spec (zlen l) 0); [pose proof (zlen_nn l); lia|]. now rewrite len_nat. Qed.
Lemma sb_read_ok : forall t addr v old rest, tuple_good addr t = true -> tuple_fit t v -> tuple_ok (fields t v) -> not_nil t v -> shaped t old ->
  Dec (same t) (sb_read t) v old (tuple_bytes (fields t v)) rest.
Proof.
  induction t as [k|k| |n t IH|t IH|t IH|fs]; intros addr v old rest G F K N S al.
  - cbn [sb_read fields]. destruct K as [_ K]. apply Forall_inv in K. cbn [lay].
    assert (Q : sz0 true (TNum k) = zlen (layout k v)) by (unfold sz0, zlen, layout; cbn [Sz]; now rewrite le_enc_length).
    rewrite Q, one_field_ok by exact K. cbn [bind dec]. rewrite call_fixed by exact F. exists v, al. split; reflexivity.
  - discriminate.
  - cbn [sb_read fields lay app]. destruct K as [_ K]. apply Forall_inv in K. cbn [lay app] in K. rewrite head_ok by reflexivity.
    cbn [bind zlen length Z.of_nat Z.leb Z.compare flat_map]. unfold field_bytes. rewrite app_nil_r, <- app_assoc.
    rewrite r_intvar_ok by (split; [apply zlen_nn|exact K]). cbn [bind]. pose proof (take_ok v rest al) as T. unfold take in T.
    assert (E : call (RString (zlen v)) (st0 (v ++ rest) al) = call (RSlice (zlen v)) (st0 (v ++ rest) al)) by reflexivity.
    rewrite E. change (call (RSlice (zlen v))) with (call (RSlice (zlen v))) in T. exists v, al. split; [exact T|reflexivity].
  - destruct (u8_dec t) as [->|U].
    + cbn [sb_read fields]. destruct K as [_ K]. apply Forall_inv in K. destruct F as [Ln F].
      assert (Q : sz0 true (TArr n (TNum U8)) = zlen (lay false (TArr n (TNum U8)) v)).
      { unfold sz0. cbn [Sz width Z.of_nat Z.leb Z.compare lay]. rewrite bytes_u8 by exact F. unfold zlen. rewrite Ln. lia. }
      rewrite Q, one_field_ok by exact K. cbn [bind dec lay]. destruct S as [Sn S]. rewrite bulk_ok; [|exact F|congruence].
      exists v, al. split; [reflexivity|apply Forall2_eq_refl].
    + destruct (sb_write_list addr t U n) as (_ & _ & E2 & _ & E3 & _ & E4 & _). rewrite E3 in G. rewrite E4 in F. rewrite E2 in *.
      rewrite (proj1 (sb_read_list t U n)). destruct K as [K _]. rewrite head_ok by exact K. cbn [bind]. rewrite zlen_map. destruct F as [Ln F], S as [Sn S].
      assert (Q : zlen old = zlen v) by (unfold zlen; congruence). rewrite Q, Z.leb_refl, len_nat.
      exact (rd_list_ok addr t G v old rest F S (eq_trans Sn (eq_sym Ln)) al).
  - destruct (u8_dec t) as [->|U].
    + cbn [sb_read fields]. destruct K as [_ K]. apply Forall_inv in K. rewrite head_ok by reflexivity.
      cbn [bind zlen length Z.of_nat Z.leb Z.compare flat_map]. rewrite app_nil_r.
      apply (rsized_ok addr (TSl (TNum U8)) v old rest eq_refl); [|exact S]. split; [exact F|split; [exact K|exact I]].
    + destruct (sb_write_list addr t U 0) as (_ & _ & _ & E2 & _ & E3 & _ & E4). rewrite E3 in G. rewrite E4 in F. rewrite E2 in *.
      rewrite (proj2 (sb_read_list t U 0)). destruct K as [K _]. rewrite head_ok by exact K. cbn [bind].
      rewrite zlen_map, (make_slice_ok t v). cbn [bind]. rewrite len_nat.
      destruct (rd_list_ok true t G v (repeat (zero t) (length v)) rest F) with (al := al ++ [zlen v]) as (v' & al' & E & R).
      * apply Forall_forall. intros x Hx. apply repeat_spec in Hx. subst x. apply zero_shaped.
      * apply repeat_length.
      * exists v', al'. split; [exact E|exact R].
  - destruct v as [v|]; [|destruct N]. cbn [sb_read fields].
    destruct (IH true v (match old with Some v => v | None => zero t end) rest G F K N) with (al := al) as (v' & al' & E & R).
    { destruct old; [exact S|apply zero_shaped]. }
    rewrite E. exists (Some v'), al'. split; [reflexivity|exact R].
  - cbn [sb_read fields]. rewrite head_ok by apply K. cbn [bind]. exact (rd_flds_ok addr fs v old rest G F S al).
Qed.

(** ** The bytes determine what they stand for *)
Definition pfree {A} (P : A -> Prop) (g : A -> list Z) : Prop := forall x y r q, P x -> P y -> g x ++ r = g y ++ q -> x = y /\ r = q.
Lemma pfree_u32 : pfree u32_ok (le_enc 4).
Proof.
  intros x y r q X Y E. pose proof (r_u32_ok x r [] X) as A. rewrite E, (r_u32_ok y q [] Y) in A. injection A as A B. now split.
Qed.
Lemma pfree_field : pfree (fun f => zlen f < 2 ^ 63) field_bytes.
Proof.
  intros x y r q X Y E. unfold field_bytes in E. rewrite <- !app_assoc in E. pose proof (zlen_nn x) as X0. pose proof (zlen_nn y) as Y0.
  pose proof (call_var (zlen x) (x ++ r) [] ltac:(lia)) as A. rewrite E, (call_var (zlen y) (y ++ q) [] ltac:(lia)) in A. injection A as A B.
  assert (L : length x = length y) by (unfold zlen in A; lia). clear - L B. revert y L B. induction x as [|a x IH]; intros [|b y] L B; try discriminate L.
  - now split.
  - injection B as -> B. injection L as L. destruct (IH y L) as [-> ->]; [now rewrite B|now split].
Qed.
Lemma pfree_list {A} (P : A -> Prop) g : pfree P g -> forall l m r q, Forall P l -> Forall P m -> length l = length m ->
  flat_map g l ++ r = flat_map g m ++ q -> l = m /\ r = q.
Proof.
  intro F. induction l as [|x l IH]; intros [|y m] r q X Y L E; try discriminate L; [now split|].
  apply Forall_cons_iff in X, Y. destruct X as [X1 X], Y as [Y1 Y]. cbn [flat_map] in E. rewrite <- !app_assoc in E.
  destruct (F _ _ _ _ X1 Y1 E) as [-> E']. injection L as L. destruct (IH m r q X Y L E') as [-> ->]. now split.
Qed.
Definition counted {A} (g : A -> list Z) (l : list A) : list Z := le_enc 4 (zlen l) ++ flat_map g l.
Lemma pfree_counted {A} (P : A -> Prop) g : pfree P g -> pfree (fun l => zlen l < 2 ^ 32 /\ Forall P l) (counted g).
Proof.
  intros F l m r q [L P1] [M P2] E. unfold counted in E. rewrite <- !app_assoc in E.
  apply pfree_u32 in E; [|split; [apply zlen_nn|exact L]|split; [apply zlen_nn|exact M]]. destruct E as [N E].
  apply (pfree_list P g F); try assumption. unfold zlen in N. lia.
Qed.
Lemma pfree_tuple : pfree tuple_ok tuple_bytes. Proof. exact (pfree_counted _ _ pfree_field). Qed.
Lemma tuples_unique ts us : Forall tuple_ok ts -> Forall tuple_ok us -> flat_map tuple_bytes ts = flat_map tuple_bytes us -> ts = us.
Proof.
  revert us. induction ts as [|t ts IH]; intros [|u us] T U E; try reflexivity.
  - exfalso. cbn [flat_map] in E. unfold tuple_bytes at 1 in E. apply (f_equal (@length Z)) in E. rewrite !app_length, le_enc_length in E. cbn in E. lia.
  - exfalso. cbn [flat_map] in E. unfold tuple_bytes at 1 in E. apply (f_equal (@length Z)) in E. rewrite !app_length, le_enc_length in E. cbn in E. lia.
  - apply Forall_cons_iff in T, U. destruct T as [T1 T], U as [U1 U]. cbn [flat_map] in E. apply pfree_tuple in E; [|assumption|assumption].
    destruct E as [-> E]. f_equal. now apply IH.
Qed.
Lemma pfree_op : pfree (fun o => u32_ok (fst (fst o)) /\ 0 <= snd (fst o) < 256 /\ zlen (snd o) < 2 ^ 63) op_bytes.
Proof.
  intros [[f c] v] [[g d] w] r q (A & B & C) (A' & B' & C') E. cbn [fst snd op_bytes] in *. rewrite <- !app_assoc in E.
  apply pfree_u32 in E; [|assumption|assumption]. destruct E as [-> E]. cbn [app] in E. injection E as -> E.
  apply pfree_field in E; [|assumption|assumption]. destruct E as [-> ->]. now split.
Qed.
Lemma pfree_flags r m r' m' b b' : 0 <= m < 2 ^ 16 -> 0 <= m' < 2 ^ 16 -> flag_bytes r m ++ b = flag_bytes r' m' ++ b' -> r = r' /\ m = m' /\ b = b'.
Proof.
  intros M M' E. unfold flag_bytes in E. apply pfree_u32 in E; [|unfold u32_ok; destruct r; lia|unfold u32_ok; destruct r'; lia]. destruct E as [E ->].
  destruct r, r'; (split; [|split; [lia|reflexivity]]); try reflexivity; lia.
Qed.
Ltac nil_r E := match type of E with ?a = ?b => rewrite <- (app_nil_r a), <- (app_nil_r b) in E end.
Lemma pfree_nil {A} (P : A -> Prop) g x y : pfree P g -> P x -> P y -> g x = g y -> x = y.
Proof. intros F X Y E. nil_r E. now apply F in E. Qed.
Lemma view_inj a b : view_ok a -> view_ok b -> view_msg a = view_msg b -> view_bytes a = view_bytes b -> a = b.
Proof.
  assert (Z0 : 0 <= 0 < 2 ^ 16) by lia.
  destruct a as [s i o l k|s r m t|s r k|s r k ops|n a], b as [s' i' o' l' k'|s' r' m' t'|s' r' k'|s' r' k' ops'|n' a']; intros A B M E; try discriminate M;
  cbn [view_ok view_bytes] in *.
  - destruct A as (A1 & A2 & A3 & A4 & A5 & A6), B as (B1 & B2 & B3 & B4 & B5 & B6).
    apply pfree_u32 in E; try assumption. destruct E as [-> E]. apply pfree_u32 in E; try assumption. destruct E as [-> E].
    apply pfree_u32 in E; try assumption. destruct E as [-> E]. apply pfree_u32 in E; try assumption. destruct E as [-> E].
    apply (pfree_nil _ (counted tuple_bytes) k k' (pfree_counted _ _ pfree_tuple) (conj A5 A6) (conj B5 B6)) in E. now subst.
  - destruct A as (A1 & A2 & A3), B as (B1 & B2 & B3). apply pfree_u32 in E; try assumption. destruct E as [-> E].
    apply pfree_flags in E; try assumption. destruct E as (-> & -> & E). apply (pfree_nil _ _ _ _ pfree_tuple A3 B3) in E. now subst.
  - destruct A as (A1 & A3), B as (B1 & B3). apply pfree_u32 in E; try assumption. destruct E as [-> E].
    apply pfree_flags in E; try assumption. destruct E as (-> & _ & E). apply (pfree_nil _ _ _ _ pfree_tuple A3 B3) in E. now subst.
  - destruct A as (A1 & A3 & A4 & A5), B as (B1 & B3 & B4 & B5). apply pfree_u32 in E; try assumption. destruct E as [-> E].
    apply pfree_flags in E; try assumption. destruct E as (-> & _ & E). apply pfree_tuple in E; try assumption. destruct E as [-> E].
    apply (pfree_nil _ (counted op_bytes) ops ops' (pfree_counted _ _ pfree_op) (conj A4 A5) (conj B4 B5)) in E. now subst.
  - destruct A as (A1 & A2), B as (B1 & B2). apply pfree_u32 in E; [|split; reflexivity || discriminate|split; reflexivity || discriminate]. destruct E as [_ E].
    apply pfree_field in E; try assumption. destruct E as [-> E]. apply (pfree_nil _ _ _ _ pfree_tuple A2 B2) in E. now subst.
Qed.

(** ** Requests *)
Lemma fill_some t : fill_ok t = true -> exists z, Sz false t = Some z.
Proof. unfold fill_ok. destruct (Sz false t); [eauto|discriminate]. Qed.
Lemma count_value_ok t v addr : value_good addr t v -> count_value t v = Ok (zlen (value_tuples t v)).
Proof. destruct t; intro H; try reflexivity; try destruct H; cbn [count_value value_tuples]; now rewrite zlen_map. Qed.
Lemma write_list addr e v : tuple_good addr e = true -> Forall (fit e) v -> enc_list (sb_write addr e) v = Ok (flat_map tuple_bytes (map (fields e) v)).
Proof.
  intros G F. rewrite (enc_list_ok _ (fun x => tuple_bytes (fields e x))); [now rewrite enc_fields|].
  intros x Hx. rewrite Forall_forall in F. destruct (F x Hx) as (A & B & C). now apply sb_write_ok.
Qed.
Lemma write_value_ok addr t v : value_good addr t v -> write_value addr t v = Ok (flat_map tuple_bytes (value_tuples t v)) /\ Forall tuple_ok (value_tuples t v).
Proof.
  assert (ONE : forall t v, tuple_good addr t = true -> fill_ok t = true -> fit t v -> 
    match Sz false t with None => Panic | Some _ => sb_write addr t v end = Ok (flat_map tuple_bytes [fields t v]) /\ Forall tuple_ok [fields t v]).
  { intros t0 v0 G P (F1 & F2 & F3). destruct (fill_some t0 P) as [z ->]. split; [|constructor; [exact F2|constructor]].
    cbn [flat_map]. rewrite app_nil_r. now apply sb_write_ok. }
  assert (MANY : forall addr e l, tuple_good addr e = true -> fill_ok e = true -> Forall (fit e) l ->
    match Sz false e with None => Panic | Some _ => enc_list (sb_write addr e) l end = Ok (flat_map tuple_bytes (map (fields e) l)) /\ Forall tuple_ok (map (fields e) l)).
  { intros addr0 e l G P F. destruct (fill_some e P) as [z ->]. split; [now apply write_list|]. apply Forall_map. eapply Forall_impl; [|exact F].
    intros x (A & B & C). exact B. }
  destruct t; intro H; try destruct H as (G & P & F); try destruct H; try (apply ONE; assumption); apply MANY; assumption.
Qed.
Lemma write_one_list e l : good e = true -> Forall (fit e) l ->
  enc_list (write_one e) l = Ok (flat_map tuple_bytes (map (fields e) l)) /\ Forall tuple_ok (map (fields e) l).
Proof.
  intros G F. split.
  - rewrite (enc_list_ok _ (fun x => tuple_bytes (fields e x))); [now rewrite enc_fields|]. intros x Hx. rewrite Forall_forall in F. now apply write_one_ok, F.
  - apply Forall_map. eapply Forall_impl; [|exact F]. intros x (A & B & C). exact B.
Qed.
Lemma good_num k : good (TNum k) = true. Proof. destruct k; reflexivity. Qed.
Lemma itf_ok t v : keys_good (KOne (IVal t v)) -> let ts := key_tuples (KOne (IVal t v)) in
  count_itf (IVal t v) = Ok (zlen ts) /\ write_itf (IVal t v) = Ok (flat_map tuple_bytes ts) /\ Forall tuple_ok ts.
Proof.
  intros [G _]. cbn zeta.
  assert (V : match t with TPtr _ => True | TSl (TNum U8) => True | _ => value_good false t v end).
  { cbn in G. destruct t as [| | | |t|t|]; try exact I; try exact G. destruct t as [k| | | | | |]; try exact G. destruct k; try exact I; exact G. }
  assert (ONE : forall t v, value_good false t v -> match t with TArr _ _ | TSl _ => False | _ => True end ->
    write_one t v = Ok (flat_map tuple_bytes [fields t v]) /\ Forall tuple_ok [fields t v]).
  { intros t0 v0 H N. assert (X : good t0 = true /\ fit t0 v0) by (unfold good; destruct t0; try (exfalso; exact H); try (exfalso; exact N); destruct H as (A & B & C); rewrite A, B; (split; [reflexivity|exact C])).
    destruct X as [X1 X2]. split; [|constructor; [apply X2|constructor]]. cbn [flat_map]. rewrite app_nil_r. now apply write_one_ok. }
  destruct t as [k|k| |n t|t|t|fs].
  - split; [reflexivity|]. cbn [key_tuples value_tuples]. destruct (ONE (TNum k) v V I) as [A B]. destruct (write_value_ok false (TNum k) v V) as [C D].
    split; [|exact B]. cbn [write_itf]. destruct k; assumption.
  - destruct V.
  - split; [reflexivity|]. exact (ONE TStr v V I).
  - split; [exact (count_value_ok _ v false V)|]. exact (write_value_ok false _ v V).
  - destruct (u8_dec t) as [->|U].
    + split; [reflexivity|]. cbn [key_tuples write_itf]. split; [|constructor; [apply G|constructor]]. cbn [flat_map]. rewrite app_nil_r. apply write_one_ok; [reflexivity|exact G].
    + assert (V' : value_good false (TSl t) v) by (destruct t as [k| | | | | |]; try exact V; destruct k; try exact V; discriminate).
      assert (E : key_tuples (KOne (IVal (TSl t) v)) = map (fields t) v) by (destruct t as [k| | | | | |]; try reflexivity; destruct k; try reflexivity; discriminate).
      rewrite E. split.
      { replace (count_itf (IVal (TSl t) v)) with (count_value (TSl t) v) by (destruct t as [k| | | | | |]; try reflexivity; destruct k; try reflexivity; discriminate).
        exact (count_value_ok (TSl t) v false V'). }
      destruct V' as (V1 & V2 & V3). pose proof (write_value_ok false (TSl t) v (conj V1 (conj V2 V3))) as W. cbn [value_tuples] in W.
      destruct t as [k| | |m t|t|t|fs]; cbn [write_itf]; try exact W.
      * destruct k; try discriminate U; try exact W; exact (write_one_list _ v (good_num _) V3).
      * exact (write_one_list TStr v eq_refl V3).
      * destruct (u8_dec t) as [->|U']; [exact (write_one_list (TSl (TNum U8)) v eq_refl V3)|].
        destruct t as [k| | | | | |]; try exact W. destruct k; try discriminate U'; exact W.
  - cbn in G. destruct v as [v|]; [|destruct G]. split; [exact (count_value_ok t v true G)|exact (write_value_ok true t v G)].
  - split; [reflexivity|]. exact (write_value_ok false (TStruct fs) v V).
Qed.
Lemma keys_ok k : keys_good k -> CountKeys k = Ok (zlen (key_tuples k)) /\ WriteKeys k = Ok (flat_map tuple_bytes (key_tuples k)) /\ Forall tuple_ok (key_tuples k).
Proof.
  destruct k as [[|t v]|l]; intro G; [destruct G as [[] _]|exact (itf_ok t v G)|]. destruct G as [G _]. cbn [CountKeys WriteKeys key_tuples].
  split; [|split].
  - rewrite zlen_map. clear -G. induction G as [|a l [_ E] G IH]; [reflexivity|]. cbn [sum_out]. rewrite E, IH. cbn [bind]. now rewrite zlen_cons.
  - rewrite (enc_list_ok _ (fun a => tuple_bytes (arg_tuple a))); [now rewrite enc_fields|]. intros x Hx. rewrite Forall_forall in G. now apply WriteTuple_ok, G.
  - apply Forall_map. eapply Forall_impl; [|exact G]. intros a [A _]. now apply WriteTuple_ok.
Qed.
Lemma put_i32 x : 0 <= x < 2 ^ 31 -> put (WFixed I32 x) = le_enc 4 x.
Proof. intro H. rewrite put_fixed; [|unfold kind_ok; cbn; lia]. unfold layout. destruct (Z.ltb_spec x 0); [lia|reflexivity]. Qed.
Lemma put_i32_cnt n : u32_ok n -> put (WFixed I32 (of_bits I32 (n mod 2 ^ 32))) = le_enc 4 n.
Proof.
  intros H. unfold u32_ok in H. rewrite Z.mod_small by lia. unfold of_bits. cbn [signed width andb].
  change (256 ^ Z.of_nat 4 / 2) with (2 ^ 31). change (256 ^ Z.of_nat 4) with (2 ^ 32). destruct (Z.leb_spec (2 ^ 31) n).
  - rewrite put_fixed; [|unfold kind_ok; cbn; lia]. unfold layout. destruct (Z.ltb_spec (n - 2 ^ 32) 0); [|lia]. cbn [width]. f_equal. cbn. lia.
  - apply put_i32. lia.
Qed.
Lemma op_number_code k c : 0 <= k < 256 -> op_number k = Some c -> op_code k = Ok c /\ 0 <= c < 8.
Proof.
  intros H E. unfold op_code. destruct (Z.leb_spec k 7) as [L|L].
  - assert (X : op_number k = Some k).
    { assert (k = 0 \/ k = 1 \/ k = 2 \/ k = 3 \/ k = 4 \/ k = 5 \/ k = 6 \/ k = 7) as D by lia. repeat (destruct D as [->|D]; [reflexivity|]). now subst. }
    rewrite X in E. injection E as <-. split; [reflexivity|lia].
  - assert (D : k = 61 \/ k = 43 \/ k = 38 \/ k = 124 \/ k = 94 \/ k = 115 \/ k = 100 \/ k = 105 \/ op_number k = None).
    { destruct (Z.eq_dec k 61); [auto|]. destruct (Z.eq_dec k 43); [auto|]. destruct (Z.eq_dec k 38); [auto|]. destruct (Z.eq_dec k 124); [auto|].
      destruct (Z.eq_dec k 94); [auto 6|]. destruct (Z.eq_dec k 115); [auto 7|]. destruct (Z.eq_dec k 100); [auto 8|]. destruct (Z.eq_dec k 105); [auto 9|].
      do 8 right. unfold op_number. assert (B : (0 <=? k) && (k <=? 7) = false) by (apply andb_false_intro2, Z.leb_gt; lia). rewrite B.
      destruct k as [|p|p]; try reflexivity. do 7 (destruct p as [p|p|]; try reflexivity; try (exfalso; lia)). }
    repeat (destruct D as [->|D]; [cbn in E; injection E as <-; split; [reflexivity|lia]|]). congruence.
Qed.
Lemma op_value_ok i : item_good i -> op_value i = Ok (field_bytes (item_field i)).
Proof.
  destruct i as [|t v]; [intros []|]. intros (G & P & F). unfold op_value, item_field. destruct (fill_some t P) as [z S].
  pose proof (sized_ok false t v G F) as X. destruct F as (F & L & B).
  destruct t as [k|k| |n t|t|t|fs]; try (rewrite S; exact X).
  - destruct k; try exact X; cbn [lay]; rewrite <- num_field by exact F; reflexivity.
  - cbn [lay app] in *. now rewrite bytes_field.
  - destruct (u8_dec t) as [->|U].
    + rewrite lay_bytes in * by exact F. now rewrite bytes_field.
    + destruct t as [k| | | | | |]; try (rewrite S; exact X). destruct k; try discriminate; rewrite S; exact X.
Qed.
Lemma op_number_range k : op_number k <> None -> 0 <= k < 256.
Proof.
  intro H. destruct (Z.ltb_spec k 0) as [L|L]; [destruct k; try lia; cbn in H; congruence|].
  destruct (Z.ltb_spec k 256) as [U|U]; [lia|]. exfalso. apply H. unfold op_number.
  assert (B : (0 <=? k) && (k <=? 7) = false) by (apply andb_false_intro2, Z.leb_gt; lia). rewrite B.
  destruct k as [|p|p]; try reflexivity. do 7 (destruct p as [p|p|]; try reflexivity; try (exfalso; lia)).
Qed.
Lemma op_ok o : op_good o -> Op_IWrite o = Ok (op_bytes (op_view o)) /\
  (u32_ok (fst (fst (op_view o))) /\ 0 <= snd (fst (op_view o)) < 256 /\ zlen (snd (op_view o)) < 2 ^ 63).
Proof.
  intros (A & B & C). unfold Op_IWrite, op_view. pose proof (op_number_range _ B) as R. destruct (op_number (op_kind o)) as [c|] eqn:E; [|congruence].
  destruct (op_number_code _ c R E) as [-> D]. rewrite op_value_ok by exact C. cbn [bind fst snd op_bytes]. split.
  - rewrite put_u32 by exact A. rewrite (put_fixed U8 c) by (unfold kind_ok; cbn; lia). unfold layout. destruct (Z.ltb_spec c 0); [lia|].
    assert (Q : le_enc (width U8) c = [c]) by (cbn [width le_enc]; rewrite (Z.mod_small c) by lia; reflexivity). now rewrite Q.
  - split; [exact A|split; [lia|]]. destruct (op_val o); [destruct C|]. apply C.
Qed.
Lemma flags_ok r m : 0 <= m < 2 ^ 16 -> put (WFixed U32 (Z.lor (b2z r) (Z.shiftl m 1))) = flag_bytes r m.
Proof.
  intro M. assert (E : Z.lor (b2z r) (Z.shiftl m 1) = (if r then 1 else 0) + 2 * m).
  { destruct m as [|p|p]; [|destruct r; reflexivity|lia]. destruct r; reflexivity. }
  rewrite E. apply put_u32. unfold u32_ok. destruct r; lia.
Qed.
Lemma request_ok q : request_good q -> IWrite q = Ok (view_bytes (view_of q)) /\ view_ok (view_of q) /\ view_msg (view_of q) = IMsg q.
Proof.
  destruct q as [q|q|q|q|q]; cbn [request_good IWrite view_of view_ok view_bytes view_msg IMsg].
  - intros (A & B & C & D & G). destruct (keys_ok _ G) as (E1 & E2 & E3). unfold SelectReq_IWrite. rewrite E1, E2. cbn [bind].
    destruct G as [_ N]. set (n := zlen (key_tuples (sel_keys q))) in *. assert (N0 : 0 <= n) by apply zlen_nn.
    assert (U : u32_ok (limit_of (sel_limit q) n)) by (unfold u32_ok, limit_of; destruct (Z.leb_spec 0 (sel_limit q)); [lia|destruct (sel_limit q =? -2); lia]).
    split; [|split; [|reflexivity]].
    + rewrite !put_u32 by assumption. do 4 f_equal. f_equal.
      * unfold limit_of. destruct (Z.leb_spec 0 (sel_limit q)); [apply put_i32; lia|]. destruct (Z.eqb_spec (sel_limit q) (-2)); [now apply put_i32_cnt|apply put_i32; lia].
      * rewrite put_u32 by (split; assumption). reflexivity.
    + split; [exact A|split; [exact B|split; [exact C|split; [exact U|split; [exact N|exact E3]]]]].
  - intros (A & B & G). destruct (WriteTuple_ok _ G) as (E1 & E2). unfold StoreReq_IWrite. rewrite E1. cbn [bind]. rewrite put_u32 by exact A. rewrite flags_ok by exact B.
    split; [reflexivity|split; [|reflexivity]]. split; [exact A|split; [exact B|exact E2]].
  - intros (A & G). destruct (WriteTuple_ok _ G) as (E1 & E2). unfold DeleteReq_IWrite. rewrite E1. cbn [bind]. rewrite put_u32 by exact A.
    rewrite <- (flags_ok (dl_return q) 0) by lia. rewrite Z.shiftl_0_l, Z.lor_0_r.
    split; [reflexivity|split; [|reflexivity]]. split; [exact A|exact E2].
  - intros (A & G & N & O). destruct (WriteTuple_ok _ G) as (E1 & E2). unfold UpdateReq_IWrite. rewrite E1.
    rewrite (enc_list_ok _ (fun o => op_bytes (op_view o))) by (intros o Ho; rewrite Forall_forall in O; now apply op_ok, O).
    cbn [bind]. rewrite put_u32 by exact A. rewrite put_cnt by exact N. rewrite <- (flags_ok (up_return q) 0) by lia. rewrite Z.shiftl_0_l, Z.lor_0_r.
    rewrite enc_fields, zlen_map. split; [reflexivity|split; [|reflexivity]]. split; [exact A|split; [exact E2|split; [exact N|]]].
    apply Forall_map. eapply Forall_impl; [|exact O]. intros o Ho. now apply op_ok.
  - intros (A & N & L). split; [|split; [split; [exact A|split; assumption]|reflexivity]]. unfold RPCReq_IWrite. rewrite put_cnt by exact N.
    change (put (IntUint32 0)) with (le_enc 4 0). unfold stringvar at 1. rewrite bytes_field by exact A. do 4 f_equal.
    induction L as [|x l X L IH]; [reflexivity|]. cbn [flat_map]. unfold stringvar at 1. rewrite bytes_field by exact X. f_equal. apply IH.
    rewrite zlen_cons in N. lia.
Qed.

(** ** Results *)
Lemma slice_ok b rest al : call (RSlice (zlen b)) (st0 (b ++ rest) al) = Ok (VBytes b, st0 rest al).
Proof.
  pose proof (take_ok b rest al) as T. unfold take in T. destruct (call (RSlice (zlen b)) (st0 (b ++ rest) al)) as [[v s]| |] eqn:E; cbn [bind] in T; try discriminate T.
  assert (X : exists l, v = VBytes l).
  { revert E. unfold call. destruct (r_call _ _) as [[w q]|] eqn:R; [|discriminate]. intro H. injection H as <- <-. revert R. cbn [r_call st0 s_rd r_err].
    destruct (_ <? _); [intro H; injection H as <- <-; eauto|]. destruct (_ <? _); [discriminate|]. intro H. injection H as <- <-. eauto. }
  destruct X as [l ->]. cbn [nums] in T. now injection T as -> ->.
Qed.
Definition small (f : tuple) : Prop := zlen (flat_map field_bytes f) < 2 ^ 32.
Lemma tuple_len f : zlen (tuple_bytes f) = zlen (flat_map field_bytes f) + 4.
Proof. unfold tuple_bytes. rewrite zlen_app. unfold zlen at 1. rewrite le_enc_length. lia. Qed.
Lemma sized_head f rest al : small f ->
  (do! (sz, s) <- r_u32 (st0 (sized_bytes f ++ rest) al); call (RSlice (sz + 4)) s) = Ok (VBytes (tuple_bytes f), st0 rest al).
Proof.
  intro S. unfold sized_bytes. rewrite <- app_assoc. rewrite r_u32_ok by (split; [apply zlen_nn|exact S]). cbn [bind]. rewrite <- tuple_len. apply slice_ok.
Qed.
Lemma sb_read_whole t addr v old al : tuple_good addr t = true -> fit t v -> shaped t old ->
  exists v' al', sb_read t old (st0 (tuple_bytes (fields t v)) al) = Ok (v', st0 [] al') /\ same t v v'.
Proof.
  intros G (F & K & N) S. destruct (sb_read_ok t addr v old [] G F K N S al) as (v' & al' & E & R). rewrite app_nil_r in E. exists v', al'. now split.
Qed.
Lemma one_tuple_ok t addr v old b1 rest al : tuple_good addr t = true -> fit t v -> small (fields t v) -> shaped t old ->
  exists v' al', one_tuple t old (mkR2 (mkRd (sized_bytes (fields t v) ++ rest) None) (mkRd b1 None) al) =
    Ok (v', false, mkR2 (mkRd rest None) (mkRd [] None) al') /\ same t v v'.
Proof.
  intros G F Sm S. destruct (sb_read_whole t addr v old al G F S) as (v' & al' & E & R). exists v', al'. split; [|exact R].
  unfold one_tuple. cbn [r0 r1 r_al r_err]. pose proof (sized_head (fields t v) rest al Sm) as H. unfold st0 in H at 1.
  destruct (r_u32 (mkSt (mkRd (sized_bytes (fields t v) ++ rest) None) al)) as [[sz s]| |]; cbn [bind] in H |- *; try discriminate H.
  rewrite H. cbn [bind failed st0 s_rd r_err nums s_alloc]. unfold st0 in E. rewrite E. reflexivity.
Qed.
Lemma tuple_loop_ok t addr : tuple_good addr t = true -> forall vs olds n b1 rest al,
  Forall (fit t) vs -> Forall (fun v => small (fields t v)) vs -> Forall (shaped t) olds -> length olds = length vs ->
  exists ws b2 al', tuple_loop t olds n (mkR2 (mkRd (flat_map sized_bytes (map (fields t) vs) ++ rest) None) (mkRd b1 None) al) =
    Ok (ws, n + zlen vs, mkR2 (mkRd rest None) (mkRd b2 None) al') /\ Forall2 (same t) vs ws.
Proof.
  intro G. induction vs as [|v vs IH]; intros olds n b1 rest al F Sm S L; destruct olds as [|o olds]; try discriminate L.
  - exists [], b1, al. split; [|constructor]. cbn [tuple_loop map flat_map app]. do 3 f_equal. unfold zlen. cbn. lia.
  - apply Forall_cons_iff in F, Sm, S. destruct F as [F1 F], Sm as [M1 M], S as [S1 S]. injection L as L.
    destruct (one_tuple_ok t addr v o b1 (flat_map sized_bytes (map (fields t) vs) ++ rest) al G F1 M1 S1) as (w & al1 & E1 & R1).
    destruct (IH olds (n + 1) [] rest al1 F M S L) as (ws & b2 & al2 & E2 & R2). exists (w :: ws), b2, al2. split; [|now constructor].
    cbn [tuple_loop map flat_map]. rewrite <- app_assoc, E1. cbn [bind]. rewrite E2. cbn [bind]. do 3 f_equal. rewrite zlen_cons. lia.
Qed.
Lemma read_many_ok t vs rest : good t = true -> readable t = true -> Forall (fit t) vs -> Forall (fun v => small (fields t v)) vs -> zlen vs < 2 ^ 32 ->
  exists m, ReadMany t (le_enc 4 (zlen vs) ++ flat_map sized_bytes (map (fields t) vs) ++ rest) = Ok m /\
    Forall2 (same t) vs (m_slice t m) /\ m_read t m = zlen vs /\ m_total t m = zlen vs /\ m_err t m = None.
Proof.
  intros G R F M L. unfold good in G. apply andb_prop in G. destruct G as [G P]. unfold ReadMany.
  unfold fill_ok in P. destruct (Sz false t) as [z1|], (Sz true t) as [z2|]; try discriminate P. rewrite R.
  pose proof (r_u32_ok (zlen vs) (flat_map sized_bytes (map (fields t) vs) ++ rest) [] (conj (zlen_nn vs) L)) as H. unfold st0 in H at 1. rewrite H. cbn [bind].
  rewrite (make_slice_ok t vs). cbn [bind].
  destruct (tuple_loop_ok t false G vs (repeat (zero t) (length vs)) 0 [] rest ([] ++ [zlen vs]) F M) as (ws & b2 & al & E & Q).
  - apply Forall_forall. intros x Hx. apply repeat_spec in Hx. subst x. apply zero_shaped.
  - apply repeat_length.
  - cbn [st0 s_rd s_alloc]. rewrite E. cbn [bind]. eexists. split; [reflexivity|]. cbn [m_slice m_read m_total m_err r0 r_err]. split; [exact Q|split; [reflexivity|split; reflexivity]].
Qed.
Lemma one_tuple_err t old r x e q : one_tuple t old r = Ok (x, e, q) -> if e then r_err (r0 q) <> None else r_err (r0 q) = None.
Proof.
  unfold one_tuple. destruct (r_err (r0 r)) as [er|] eqn:E0. { intro H. injection H as <- <- <-. congruence. }
  destruct (r_u32 _) as [[sz s]| |]; cbn [bind]; try discriminate. destruct (call _ s) as [[b s']| |]; cbn [bind]; try discriminate.
  unfold failed. destruct (r_err (s_rd s')) as [er|] eqn:E1.
  - intro H. injection H as <- <- <-. cbn [r0]. congruence.
  - destruct (sb_read _ _ _) as [[y q']| |]; cbn [bind]; try discriminate. intro H. injection H as <- <- <-. exact E1.
Qed.
Lemma tuple_loop_any t : forall old n r l n' q, tuple_loop t old n r = Ok (l, n', q) ->
  length l = length old /\ n <= n' <= n + zlen old /\ (r_err (r0 q) = None -> n' = n + zlen old).
Proof.
  induction old as [|o old IH]; intros n r l n' q; cbn [tuple_loop].
  - intro H. injection H as <- <- <-. split; [reflexivity|split; [unfold zlen; cbn; lia|unfold zlen; cbn; lia]].
  - destruct (one_tuple t o r) as [[[y e] r']| |] eqn:E; cbn [bind]; try discriminate. pose proof (one_tuple_err _ _ _ _ _ _ E) as X. rewrite zlen_cons.
    pose proof (zlen_nn old) as NN. destruct e.
    + intro H. injection H as <- <- <-. split; [reflexivity|split; [lia|]]. intro H. contradiction.
    + destruct (tuple_loop t old (n + 1) r') as [[[ys n2] r2]| |] eqn:E2; cbn [bind]; try discriminate. intro H. injection H as <- <- <-.
      destruct (IH _ _ _ _ _ E2) as (A & B & C). split; [cbn; now rewrite A|split; [lia|]]. intro H. rewrite C by exact H. lia.
Qed.
Lemma read_many_any t b m : ReadMany t b = Ok m -> zlen (m_slice t m) = m_total t m /\ 0 <= m_read t m <= m_total t m /\ (m_err t m = None -> m_read t m = m_total t m).
Proof.
  unfold ReadMany. destruct (Sz true t); [|discriminate]. destruct (readable t); [|discriminate].
  destruct (r_u32 _) as [[total s]| |] eqn:E1; cbn [bind]; try discriminate. unfold make_slice. destruct (Z.ltb_spec total 0) as [L|L]; cbn [bind]; [discriminate|].
  destruct (tuple_loop _ _ _ _) as [[[l n] r]| |] eqn:E2; cbn [bind]; try discriminate. intro H. injection H as <-. cbn.
  destruct (tuple_loop_any _ _ _ _ _ _ _ E2) as (A & B & C). rewrite repeat_length in A. unfold zlen in *. rewrite repeat_length in *. rewrite Z2Nat.id in * by lia.
  split; [rewrite A; lia|split; [lia|]]. intro H. rewrite C by exact H. lia.
Qed.
(** what a response that was read without an error must contain *)
Lemma bytes_firstn n b : bytes_ok b -> bytes_ok (firstn n b).
Proof. unfold bytes_ok. rewrite !Forall_forall. intros H x Hx. apply H. rewrite <- (firstn_skipn n b). apply in_or_app. now left. Qed.
Lemma bytes_skipn n b : bytes_ok b -> bytes_ok (skipn n b).
Proof. unfold bytes_ok. rewrite !Forall_forall. intros H x Hx. apply H. rewrite <- (firstn_skipn n b). apply in_or_app. now right. Qed.
Lemma call_err c s v s' : call c s = Ok (v, s') -> r_err (s_rd s') = None -> r_err (s_rd s) = None.
Proof.
  unfold call, r_call. destruct (r_err (s_rd s)) eqn:E; [|reflexivity]. intro H. injection H as <- <-. cbn. congruence.
Qed.
Lemma r_u32_uses s n s' : r_u32 s = Ok (n, s') -> r_err (s_rd s') = None -> bytes_ok (r_body (s_rd s)) ->
  0 <= n /\ bytes_ok (r_body (s_rd s')) /\ zlen (r_body (s_rd s)) = 4 + zlen (r_body (s_rd s')).
Proof.
  unfold r_u32, call, r_call. destruct (r_err (s_rd s)) eqn:E. { cbn. intro H. injection H as <- <-. cbn. congruence. }
  destruct (Nat.ltb_spec (length (r_body (s_rd s))) (width U32)) as [L|L]; cbn [bind].
  - intro H. injection H as <- <-. cbn. discriminate.
  - intro H. injection H as <- <-. intros _ B. cbn [num s_rd r_body]. split; [|split].
    + change (0 <= le_dec (firstn 4 (r_body (s_rd s)))). apply le_dec_range, bytes_firstn, B.
    + change (bytes_ok (skipn 4 (r_body (s_rd s)))). apply bytes_skipn, B.
    + change (zlen (r_body (s_rd s)) = 4 + zlen (skipn 4 (r_body (s_rd s)))). unfold zlen. rewrite skipn_length. change (width U32) with 4%nat in *. lia.
Qed.
Lemma slice_uses n s b s' : call (RSlice n) s = Ok (b, s') -> r_err (s_rd s') = None -> bytes_ok (r_body (s_rd s)) ->
  zlen (r_body (s_rd s)) = n + zlen (r_body (s_rd s')) /\ bytes_ok (r_body (s_rd s')) /\ 0 <= n.
Proof.
  unfold call, r_call. destruct (r_err (s_rd s)) eqn:E. { cbn. intro H. injection H as <- <-. cbn. congruence. }
  destruct (Z.ltb_spec (Z.of_nat (length (r_body (s_rd s)))) n) as [L|L]. { intro H. injection H as <- <-. cbn. discriminate. }
  destruct (Z.ltb_spec n 0) as [L'|L']; [discriminate|]. intro H. injection H as <- <-. intros _ B. cbn [s_rd r_body]. split; [|split; [apply bytes_skipn, B|lia]].
  unfold zlen. rewrite skipn_length. lia.
Qed.
Lemma one_tuple_uses t old r x q : one_tuple t old r = Ok (x, false, q) -> bytes_ok (r_body (r0 r)) -> 8 + zlen (r_body (r0 q)) <= zlen (r_body (r0 r)) /\ bytes_ok (r_body (r0 q)).
Proof.
  unfold one_tuple. destruct (r_err (r0 r)) as [er|] eqn:E0; [discriminate|].
  destruct (r_u32 _) as [[sz s]| |] eqn:E1; cbn [bind]; try discriminate. destruct (call _ s) as [[b s']| |] eqn:E2; cbn [bind]; try discriminate.
  unfold failed. destruct (r_err (s_rd s')) as [er|] eqn:E3; [discriminate|].
  destruct (sb_read _ _ _) as [[y q']| |]; cbn [bind]; try discriminate. intros H B. injection H as <- <-. cbn [r0].
  destruct (r_u32_uses _ _ _ E1 (call_err _ _ _ _ E2 E3) B) as (N & B1 & M). destruct (slice_uses _ _ _ _ E2 E3 B1) as (L & B2 & _). cbn [s_rd] in M. split; [lia|exact B2].
Qed.
Lemma tuple_loop_uses t : forall old n r l n' q, tuple_loop t old n r = Ok (l, n', q) -> bytes_ok (r_body (r0 r)) -> 8 * (n' - n) <= zlen (r_body (r0 r)).
Proof.
  induction old as [|o old IH]; intros n r l n' q; cbn [tuple_loop].
  - intros H _. injection H as <- <- <-. pose proof (zlen_nn (r_body (r0 r))). lia.
  - destruct (one_tuple t o r) as [[[y e] r']| |] eqn:E; cbn [bind]; try discriminate. destruct e.
    + intros H _. injection H as <- <- <-. pose proof (zlen_nn (r_body (r0 r))). lia.
    + destruct (tuple_loop t old (n + 1) r') as [[[ys n2] r2]| |] eqn:E2; cbn [bind]; try discriminate. intros H B. injection H as <- <- <-.
      destruct (one_tuple_uses _ _ _ _ _ E B) as [L B']. specialize (IH _ _ _ _ _ E2 B'). lia.
Qed.
Lemma read_many_uses t b m : bytes_ok b -> ReadMany t b = Ok m -> 8 * m_read t m <= zlen b.
Proof.
  intro B. unfold ReadMany. destruct (Sz true t); [|discriminate]. destruct (readable t); [|discriminate].
  destruct (r_u32 _) as [[total s]| |] eqn:E1; cbn [bind]; try discriminate. unfold make_slice. destruct (Z.ltb_spec total 0) as [L|L]; cbn [bind]; [discriminate|].
  destruct (tuple_loop _ _ _ _) as [[[l n] r]| |] eqn:E2; cbn [bind]; try discriminate. intro H. injection H as <-. cbn [m_read].
  assert (Q : zlen (r_body (s_rd s)) <= zlen b /\ bytes_ok (r_body (s_rd s))); [|apply tuple_loop_uses in E2; cbn [r0 s_rd] in *; [lia|apply Q]].
  unfold r_u32, call, r_call in E1. cbn [s_rd r_err r_body] in E1. destruct (Nat.ltb_spec (length b) (width U32)); cbn [bind] in E1; injection E1 as <- <-; cbn [s_rd r_body]; [split; [lia|exact B]|].
  change (zlen (skipn 4 b) <= zlen b /\ bytes_ok (skipn 4 b)). split; [|apply bytes_skipn, B]. unfold zlen. rewrite skipn_length. lia.
Qed.
Lemma read_first_ok t v old n rest : good t = true -> fit t v -> small (fields t v) -> shaped t old -> 1 <= n < 2 ^ 32 ->
  exists v', ReadFirst t old (le_enc 4 n ++ sized_bytes (fields t v) ++ rest) = Ok (v', true, n, None) /\ same t v v'.
Proof.
  intros G F M S L. unfold good in G. apply andb_prop in G. destruct G as [G P]. unfold ReadFirst.
  assert (U : u32_ok n) by (unfold u32_ok; lia).
  pose proof (r_u32_ok n (sized_bytes (fields t v) ++ rest) [] U) as H. unfold st0 in H at 1. rewrite H. cbn [bind].
  destruct (Z.ltb_spec 0 n); [|lia]. unfold sized_bytes. rewrite <- app_assoc. rewrite r_u32_ok by (split; [apply zlen_nn|exact M]). cbn [bind st0 s_rd r_err].
  rewrite <- tuple_len. rewrite slice_ok. cbn [bind nums].
  unfold ReadRawTuple. unfold fill_ok in P. destruct (Sz false t) as [z1|], (Sz true t) as [z2|]; try discriminate P.
  destruct (sb_read_whole t false v old [] G F S) as (v' & al' & E' & R). unfold sub. cbn [s_alloc st0]. unfold st0 in E'. rewrite E'. cbn [bind].
  exists v'. split; [reflexivity|exact R].
Qed.

(** ** Tails *)
Lemma split_drops addr fs vs e xs : sfields_good addr fs = true -> sfields_fit fs vs -> tuple_ok (struct_fields fs vs) ->
  struct_tail TailSplit addr fs vs e xs = Ok (tuple_bytes (struct_fields fs vs)).
Proof.
  intros G F K. unfold struct_tail. destruct (sb_flds_ok addr fs vs G F) as [-> Q]. cbn [bind struct_cnt]. rewrite Z.mul_0_r, Z.add_0_r, Q, app_nil_r.
  change (Z.of_nat (length (struct_fields fs vs))) with (zlen (struct_fields fs vs)). rewrite put_cnt by apply K. reflexivity.
Qed.
Lemma tail_panics addr fs vs e x xs : sfields_good addr fs = true -> sfields_fit fs vs -> match e with TNum _ | TStruct _ => True | _ => False end ->
  struct_tail SboxModel.Tail addr fs vs e (x :: xs) = Panic.
Proof. intros G F H. unfold struct_tail. destruct (sb_flds_ok addr fs vs G F) as [-> _]. destruct e; try destruct H; reflexivity. Qed.
Lemma tail_str_panics addr fs vs x xs : sfields_good addr fs = true -> sfields_fit fs vs -> x <> [] ->
  struct_tail SboxModel.Tail addr fs vs TStr (x :: xs) = Panic.
Proof. intros G F H. unfold struct_tail. destruct (sb_flds_ok addr fs vs G F) as [-> _]. destruct x; [congruence|reflexivity]. Qed.
Lemma tail_empty k addr fs vs e : sfields_good addr fs = true -> sfields_fit fs vs -> tuple_ok (struct_fields fs vs) ->
  struct_tail k addr fs vs e [] = Ok (tuple_bytes (tail_fields k fs vs e [])).
Proof.
  intros G F K. unfold struct_tail, tail_fields. destruct (sb_flds_ok addr fs vs G F) as [-> Q].
  assert (E : struct_cnt k fs (@zlen (val e) []) = zlen (struct_fields fs vs)) by (unfold zlen; cbn; destruct k; cbn [struct_cnt]; lia).
  rewrite E, put_cnt by apply K. destruct k; cbn [bind enc_list map flat_map]; rewrite !app_nil_r; reflexivity.
Qed.
Lemma tail_empty_strings addr fs vs n : sfields_good addr fs = true -> sfields_fit fs vs ->
  tuple_ok (tail_fields SboxModel.Tail fs vs TStr (repeat [] n)) ->
  struct_tail SboxModel.Tail addr fs vs TStr (repeat [] n) = Ok (tuple_bytes (tail_fields SboxModel.Tail fs vs TStr (repeat [] n))).
Proof.
  intros G F K. unfold struct_tail. destruct (sb_flds_ok addr fs vs G F) as [-> Q]. cbn [bind].
  assert (E : struct_cnt SboxModel.Tail fs (@zlen (val TStr) (repeat [] n)) = zlen (tail_fields SboxModel.Tail fs vs TStr (repeat [] n))).
  { unfold tail_fields. unfold zlen. cbn [struct_cnt]. rewrite app_length, map_length, Q, Nat2Z.inj_add. reflexivity. }
  rewrite E, put_cnt by apply K.
  assert (W : forall m, enc_list (tail_elem TStr) (repeat [] m) = Ok (flat_map field_bytes (map (lay false TStr) (repeat [] m)))).
  { induction m as [|m IH]; [reflexivity|]. cbn [repeat enc_list map flat_map]. rewrite IH. reflexivity. }
  rewrite W. cbn [bind]. unfold tuple_bytes, tail_fields. now rewrite flat_map_app.
Qed.
