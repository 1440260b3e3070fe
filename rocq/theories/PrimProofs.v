(** Proofs about the primitive layer of marshal. *)
From Coq Require Import ZArith List Bool Arith Lia.
Import ListNotations.
From Verif Require Import Base PrimModel PrimSpec.
Open Scope Z_scope.

(** ** Varints *)
Lemma land127 i : Z.land i 127 = i mod 128.
Proof. change 127 with (Z.ones 7). now rewrite Z.land_ones by lia. Qed.
Lemma shr7 i : Z.shiftr i 7 = i / 128.
Proof. now rewrite Z.shiftr_div_pow2 by lia. Qed.
Lemma lor_add a d : 0 <= d < 128 -> Z.lor (a * 128) d = a * 128 + d.
Proof.
  intro H. assert (L : Z.land (a * 128) d = 0).
  { change 128 with (2 ^ 7). rewrite <- Z.shiftl_mul_pow2 by lia. apply Z.bits_inj'. intros n Hn.
    rewrite Z.land_spec, Z.bits_0, Z.shiftl_spec by lia.
    destruct (Z.lt_ge_cases n 7) as [h|h].
    - rewrite (Z.testbit_neg_r a (n - 7)) by lia. reflexivity.
    - replace (Z.testbit d n) with false; [now rewrite andb_false_r|].
      destruct (Z.eq_dec d 0) as [->|]; [now rewrite Z.bits_0|].
      symmetry. apply Z.bits_above_log2; [lia|].
      assert (Z.log2 d < 7) by (apply Z.log2_lt_pow2; [lia|change (2 ^ 7) with 128; lia]). lia. }
  rewrite Z.add_nocarry_lxor by exact L. symmetry. now rewrite Z.lxor_lor by exact L.
Qed.
Lemma cont_eq x : 0 <= x < 128 -> cont x = x + 128.
Proof. intro H. unfold cont. rewrite Z.mod_small by lia. change 128 with (1 * 128) at 1. rewrite lor_add by lia. lia. Qed.

(** the last [k] base-128 digits of [i] *)
Fixpoint digs (k : nat) (i : Z) : list Z :=
  match k with O => [] | S k => digs k (i / 128) ++ [i mod 128] end.
Lemma digs_length k i : length (digs k i) = k.
Proof. revert i; induction k; intro i; cbn [digs]; [reflexivity|]. rewrite app_length, IHk. cbn. lia. Qed.
Lemma digs_ok k i : Forall digit_ok (digs k i).
Proof.
  revert i; induction k; intro i; cbn [digs]; [constructor|]. apply Forall_app; split; [apply IHk|].
  constructor; [|constructor]. unfold digit_ok. apply Z.mod_pos_bound; lia.
Qed.
Lemma digits_value_app ds : forall acc es, digits_value acc (ds ++ es) = digits_value (digits_value acc ds) es.
Proof. induction ds; intros; cbn [app digits_value]; [reflexivity|apply IHds]. Qed.
Lemma pow128_S k : 128 ^ Z.of_nat (S k) = 128 * 128 ^ Z.of_nat k.
Proof. rewrite Nat2Z.inj_succ, Z.pow_succ_r by lia. reflexivity. Qed.
Lemma pow128_pos k : 0 < 128 ^ Z.of_nat k.
Proof. apply Z.pow_pos_nonneg; lia. Qed.
Lemma digs_value k : forall i acc, digits_value acc (digs k i) = acc * 128 ^ Z.of_nat k + i mod 128 ^ Z.of_nat k.
Proof.
  induction k; intros i acc; cbn [digs].
  - cbn. rewrite Z.mod_1_r. lia.
  - rewrite digits_value_app, IHk, pow128_S. cbn [digits_value]. pose proof (pow128_pos k).
    rewrite Z.rem_mul_r by lia. nia.
Qed.
Lemma digs_hd k : forall i, digs (S k) i = (i / 128 ^ Z.of_nat k) mod 128 :: digs k i.
Proof.
  induction k; intro i.
  - cbn. now rewrite Z.div_1_r.
  - cbn [digs] in IHk |- *. rewrite (IHk (i / 128)). cbn [app]. f_equal.
    rewrite Z.div_div by (try lia; pose proof (pow128_pos k); lia). now rewrite pow128_S.
Qed.
Lemma digits_value_bound ds : Forall digit_ok ds -> forall acc, 0 <= acc ->
  acc * 128 ^ Z.of_nat (length ds) <= digits_value acc ds < (acc + 1) * 128 ^ Z.of_nat (length ds).
Proof.
  induction 1 as [|d ds Hd _ IH]; intros acc Ha; cbn [digits_value length].
  - cbn. lia.
  - unfold digit_ok in Hd. rewrite pow128_S. pose proof (pow128_pos (length ds)).
    destruct (IH (acc * 128 + d)) as [A B]; [lia|]. nia.
Qed.

Definition hi (ds : list Z) : list Z := map (fun d => d + 128) ds.
Lemma mark_snoc ds d : mark (ds ++ [d]) = hi ds ++ [d].
Proof.
  induction ds as [|a ds IH]; [reflexivity|]. cbn [app]. destruct (ds ++ [d]) as [|x l] eqn:E; [now destruct ds|].
  cbn [mark]. cbn [mark] in IH. cbn [hi map app]. now rewrite IH.
Qed.
Lemma var_loop_eq k : forall i acc, var_loop k i acc = hi (digs k (i / 128)) ++ acc.
Proof.
  induction k; intros i acc; cbn [var_loop digs]; [reflexivity|].
  rewrite IHk, shr7, land127, cont_eq by (apply Z.mod_pos_bound; lia).
  unfold hi. rewrite map_app, <- app_assoc. reflexivity.
Qed.
(** the number of bytes chosen by the switch *)
Definition nbytes (i : Z) : nat :=
  if i <? 2 ^ 7 then 1%nat else if i <? 2 ^ 14 then 2%nat else if i <? 2 ^ 21 then 3%nat else
  if i <? 2 ^ 28 then 4%nat else if i <? 2 ^ 35 then 5%nat else if i <? 2 ^ 42 then 6%nat
             else if i <? 2 ^ 49 then 7%nat else if i <? 2 ^ 56 then 8%nat else if i <? 2 ^ 63 then 9%nat else 10%nat.
Lemma nbytes_range i : (1 <= nbytes i <= 10)%nat.
Proof. unfold nbytes. repeat (destruct (_ <? _); [lia|]). lia. Qed.
Lemma nbytes_hi i : 0 <= i < 2 ^ 64 -> i < 128 ^ Z.of_nat (nbytes i).
Proof.
  intro H. unfold nbytes.
  repeat (match goal with |- context [?a <? ?b] => destruct (Z.ltb_spec a b) end; [cbn; lia|]).
  cbn; lia.
Qed.
Lemma nbytes_lo i : 0 <= i < 2 ^ 64 -> nbytes i <> 1%nat -> 128 ^ Z.of_nat (nbytes i - 1) <= i.
Proof.
  intro H. unfold nbytes.
  repeat (match goal with |- context [?a <? ?b] => destruct (Z.ltb_spec a b) end; [cbn; lia|]).
  cbn; lia.
Qed.
Lemma var_bytes_mark i : 0 <= i < 2 ^ 64 -> var_bytes i = mark (digs (nbytes i) i).
Proof.
  intro H.
  assert (L : forall n, var_loop n i [Z.land i 127] = mark (digs (S n) i)).
  { intro n. rewrite var_loop_eq, land127. cbn [digs]. now rewrite mark_snoc. }
  unfold var_bytes, nbytes.
  destruct (Z.ltb_spec i (2 ^ 7)).
  { cbn [digs app mark]. rewrite !Z.mod_small by (cbn in *; lia). reflexivity. }
  destruct (Z.ltb_spec i (2 ^ 14)).
  { rewrite <- L. cbn [var_loop]. rewrite shr7, !land127.
    rewrite (Z.mod_small (i / 128)); [reflexivity|]. cbn in *. split; [apply Z.div_pos; lia|apply Z.div_lt_upper_bound; lia]. }
  destruct (Z.ltb_spec i (2 ^ 21)).
  { rewrite <- L. cbn [var_loop]. rewrite !shr7, !land127. rewrite Z.shiftr_div_pow2 by lia.
    rewrite Z.div_div by lia. change (2 ^ 14) with (128 * 128).
    rewrite (Z.mod_small (i / (128 * 128))); [reflexivity|]. cbn in *. split; [apply Z.div_pos; lia|apply Z.div_lt_upper_bound; lia]. }
  cbv zeta.
  repeat (destruct (_ <? _); [rewrite L; reflexivity|]). rewrite L; reflexivity.
Qed.

Lemma digits_value_lt_pow ds : Forall digit_ok ds -> 0 <= digits_value 0 ds < 128 ^ Z.of_nat (length ds).
Proof. intro H. pose proof (digits_value_bound ds H 0 ltac:(lia)). lia. Qed.
(** the encoding is the shortest one *)
Lemma minimal_digits i ds : 0 <= i < 2 ^ 64 -> Forall digit_ok ds -> ds <> [] -> digits_value 0 ds = i ->
  (nbytes i <= length ds)%nat.
Proof.
  intros H D N E. destruct (Nat.eq_dec (nbytes i) 1) as [e|ne]; [rewrite e; destruct ds; [easy|cbn; lia]|].
  pose proof (nbytes_lo i H ne). destruct (digits_value_lt_pow ds D) as [_ B]. rewrite E in B.
  destruct (le_lt_dec (nbytes i) (length ds)) as [h|h]; [exact h|exfalso].
  assert (128 ^ Z.of_nat (length ds) <= 128 ^ Z.of_nat (nbytes i - 1)) by (apply Z.pow_le_mono_r; lia). lia.
Qed.

(** *** decoding *)
Lemma scan_step res c : 0 <= res <= 2 ^ 57 - 1 -> 0 <= c < 256 ->
  Z.lor (Z.shiftl res 7 mod 2 ^ 64) (Z.land c 127) = res * 128 + c mod 128.
Proof.
  intros R C. rewrite Z.shiftl_mul_pow2 by lia. rewrite Z.mod_small by (change (2 ^ 7) with 128; lia).
  rewrite land127. apply lor_add. apply Z.mod_pos_bound; lia.
Qed.
Lemma max57 : (2 ^ 64 - 1) / 2 ^ 7 = 2 ^ 57 - 1. Proof. reflexivity. Qed.

Lemma scan_mark : forall ds rest res, Forall digit_ok ds -> ds <> [] -> 0 <= res <= 2 ^ 57 - 1 ->
  if digits_value res ds <? 2 ^ 64 then var_scan (mark ds ++ rest) res = (digits_value res ds, inr rest)
  else exists v, var_scan (mark ds ++ rest) res = (v, inl EVarBig).
Proof.
  induction ds as [|d ds IH]; intros rest res D N R; [easy|].
  apply Forall_cons_iff in D. destruct D as [Hd D]. unfold digit_ok in Hd.
  destruct ds as [|d2 ds].
  - cbn [mark app digits_value var_scan]. rewrite scan_step by lia. rewrite Z.mod_small by lia.
    destruct (Z.ltb_spec d 128); [|lia].
    destruct (Z.ltb_spec (res * 128 + d) (2 ^ 64)); [reflexivity|lia].
  - cbn [mark app]. set (t := mark (d2 :: ds)). cbn [var_scan].
    rewrite scan_step by lia. replace ((d + 128) mod 128) with d
      by (rewrite <- (Z.mul_1_l 128) at 1; rewrite Z.mod_add by lia; now rewrite Z.mod_small by lia).
    destruct (Z.ltb_spec (d + 128) 128); [lia|]. rewrite max57.
    change (digits_value res (d :: d2 :: ds)) with (digits_value (res * 128 + d) (d2 :: ds)).
    destruct (Z.ltb_spec (2 ^ 57 - 1) (res * 128 + d)).
    + destruct (Z.ltb_spec (digits_value (res * 128 + d) (d2 :: ds)) (2 ^ 64)) as [h|h]; [exfalso|eexists; reflexivity].
      destruct (digits_value_bound (d2 :: ds) D (res * 128 + d) ltac:(lia)) as [B _].
      cbn [length] in B. rewrite pow128_S in B. pose proof (pow128_pos (length ds)). nia.
    + apply IH; [exact D|easy|lia].
Qed.
Lemma scan_hi : forall ds res, Forall digit_ok ds -> 0 <= res <= 2 ^ 57 - 1 ->
  exists v e, var_scan (hi ds) res = (v, inl e).
Proof.
  induction ds as [|d ds IH]; intros res D R; [now eexists _, _|].
  apply Forall_cons_iff in D. destruct D as [Hd D]. unfold digit_ok in Hd.
  cbn [hi map var_scan]. fold (hi ds). rewrite scan_step by lia.
  replace ((d + 128) mod 128) with d
      by (rewrite <- (Z.mul_1_l 128) at 1; rewrite Z.mod_add by lia; now rewrite Z.mod_small by lia).
  destruct (Z.ltb_spec (d + 128) 128); [lia|]. rewrite max57.
  destruct (Z.ltb_spec (2 ^ 57 - 1) (res * 128 + d)); [now eexists _, _|]. apply IH; [exact D|lia].
Qed.
(** every body either starts with a complete numeral or has only continuation bytes *)
Lemma split_body b : bytes_ok b ->
  (exists ds rest, ds <> [] /\ Forall digit_ok ds /\ b = mark ds ++ rest) \/
  (exists ds, Forall digit_ok ds /\ b = hi ds).
Proof.
  induction 1 as [|c b Hc _ IH]; [right; exists []; now split|]. unfold byte_ok in Hc.
  destruct (Z_lt_ge_dec c 128) as [h|h].
  - left. exists [c], b. split; [easy|split; [|reflexivity]]. constructor; [|constructor]. unfold digit_ok; lia.
  - assert (D : digit_ok (c - 128)) by (unfold digit_ok; lia).
    destruct IH as [(ds & rest & N & F & ->)|(ds & F & ->)].
    + left. exists ((c - 128) :: ds), rest. split; [easy|split; [now constructor|]].
      destruct ds; [easy|]. cbn [mark app]. f_equal. lia.
    + right. exists ((c - 128) :: ds). split; [now constructor|]. cbn [hi map]. f_equal. lia.
Qed.
Lemma mark_hi_disjoint : forall ds rest es, Forall digit_ok ds -> ds <> [] -> Forall digit_ok es ->
  mark ds ++ rest = hi es -> False.
Proof.
  induction ds as [|d ds IH]; intros rest es D N F E; [easy|].
  apply Forall_cons_iff in D. destruct D as [Hd D]. unfold digit_ok in Hd.
  destruct es as [|x es]; [destruct ds; discriminate|]. apply Forall_cons_iff in F. destruct F as [Hx F]. unfold digit_ok in Hx.
  destruct ds as [|d2 ds].
  - cbn [mark app hi map] in E. injection E as E1 _. lia.
  - cbn [mark app hi map] in E. injection E as E1 E2. apply (IH rest es D ltac:(easy) F E2).
Qed.

(** *** the size computation *)
Lemma nbytes_unique i n : 0 <= i < 2 ^ 64 -> (n = 0%nat \/ 128 ^ Z.of_nat n <= i) -> i < 128 ^ Z.of_nat (S n) -> nbytes i = S n.
Proof.
  intros H L U. pose proof (nbytes_hi i H) as A. pose proof (nbytes_range i) as R.
  assert (nbytes i <= S n)%nat.
  { destruct (Nat.eq_dec (nbytes i) 1) as [|ne]; [lia|]. pose proof (nbytes_lo i H ne).
    destruct (le_lt_dec (nbytes i) (S n)) as [h|h]; [exact h|exfalso].
    assert (128 ^ Z.of_nat (S n) <= 128 ^ Z.of_nat (nbytes i - 1)) by (apply Z.pow_le_mono_r; lia). lia. }
  destruct L as [->|L]; [lia|].
  destruct (le_lt_dec (S n) (nbytes i)) as [h|h]; [lia|exfalso].
  assert (128 ^ Z.of_nat (nbytes i) <= 128 ^ Z.of_nat n) by (apply Z.pow_le_mono_r; lia). lia.
Qed.
Lemma varsize_loop_spec f : forall n j, 0 <= n < 128 ^ Z.of_nat (S f) -> exists r : nat,
  varsize_loop f n j = j + Z.of_nat r /\ n / 128 ^ Z.of_nat r <= 128 /\ (forall m, (m < r)%nat -> 128 < n / 128 ^ Z.of_nat m).
Proof.
  induction f as [|f IH]; intros n j Hn; cbn [varsize_loop].
  - exists 0%nat. cbn [Z.of_nat]. rewrite Z.pow_0_r, Z.div_1_r. cbn in Hn. split; [lia|split; [lia|intros; lia]].
  - destruct (Z.ltb_spec 128 n) as [h|h].
    + rewrite shr7. destruct (IH (n / 128) (j + 1)) as (r & E & A & B).
      { split; [apply Z.div_pos; lia|]. apply Z.div_lt_upper_bound; [lia|]. now rewrite <- pow128_S. }
      exists (S r). assert (D : forall m, n / 128 ^ Z.of_nat (S m) = n / 128 / 128 ^ Z.of_nat m).
      { intro m. rewrite pow128_S, Z.div_div by (try lia; apply pow128_pos). reflexivity. }
      split; [lia|split; [now rewrite D|]]. intros [|m] Hm; [cbn [Z.of_nat]; now rewrite Z.pow_0_r, Z.div_1_r|].
      rewrite D. apply B. lia.
    + exists 0%nat. cbn [Z.of_nat]. rewrite Z.pow_0_r, Z.div_1_r. split; [lia|split; [lia|intros; lia]].
Qed.
Lemma varsize_spec i : 0 <= i < 2 ^ 64 ->
  ((exists k, i / 128 ^ Z.of_nat k = 128) -> varu64size i = Z.of_nat (nbytes i) - 1) /\
  (~ (exists k, i / 128 ^ Z.of_nat k = 128) -> varu64size i = Z.of_nat (nbytes i)).
Proof.
  intro H. unfold varu64size.
  destruct (varsize_loop_spec 10 i 0) as (r & E & A & B); [cbn; lia|]. rewrite E. clear E.
  pose proof (pow128_pos r) as P.
  assert (LO : r = 0%nat \/ 128 ^ Z.of_nat r <= i).
  { destruct r as [|r]; [now left|right]. specialize (B r ltac:(lia)). rewrite pow128_S. pose proof (pow128_pos r).
    pose proof (Z.mul_div_le i (128 ^ Z.of_nat r) ltac:(lia)). nia. }
  split.
  - intros [k K].
    assert (r = k).
    { destruct (lt_eq_lt_dec r k) as [[h|h]|h]; [exfalso|exact h|exfalso].
      - replace k with (r + S (k - r - 1))%nat in K by lia.
        rewrite Nat2Z.inj_add, Z.pow_add_r, <- Z.div_div in K by (try lia; apply pow128_pos).
        rewrite pow128_S in K. pose proof (pow128_pos (k - r - 1)) as Q.
        assert (i / 128 ^ Z.of_nat r / (128 * 128 ^ Z.of_nat (k - r - 1)) <= 128 / 128).
        { transitivity (128 / (128 * 128 ^ Z.of_nat (k - r - 1))); [apply Z.div_le_mono; nia|].
          rewrite <- Z.div_div by lia. change (128 / 128) with 1. apply Z.div_le_upper_bound; lia. }
        change (128 / 128) with 1 in *. lia.
      - specialize (B k h). lia. }
    subst k.
    rewrite (nbytes_unique i (S r) H); [lia|right|].
    + rewrite pow128_S. pose proof (Z.mul_div_le i (128 ^ Z.of_nat r) P). nia.
    + rewrite !pow128_S. pose proof (Z.mul_succ_div_gt i (128 ^ Z.of_nat r) P). nia.
  - intro N. assert (i / 128 ^ Z.of_nat r <> 128) by (intro; apply N; now exists r).
    rewrite (nbytes_unique i r H LO); [lia|]. rewrite pow128_S.
    pose proof (Z.mul_succ_div_gt i (128 ^ Z.of_nat r) P). nia.
Qed.

(** ** Fixed-width numbers *)
Lemma pow256 k : 256 ^ Z.of_nat k = 2 ^ (8 * Z.of_nat k).
Proof. rewrite Z.pow_mul_r by lia. reflexivity. Qed.
Lemma half k : 256 ^ Z.of_nat (width k) = 2 * 2 ^ (8 * Z.of_nat (width k) - 1).
Proof. destruct k; reflexivity. Qed.
Lemma of_to_bits k x : kind_ok k x -> of_bits k (to_bits k x) = x.
Proof.
  unfold kind_ok, of_bits, to_bits. rewrite half. set (h := 2 ^ (8 * Z.of_nat (width k) - 1)).
  assert (Hh : 0 < h) by (unfold h; destruct k; reflexivity).
  rewrite (Z.mul_comm 2 h), Z.div_mul by lia. destruct (signed k); cbn [andb].
  - intro R. destruct (Z_lt_ge_dec x 0).
    + replace (x mod (h * 2)) with (x + h * 2) by (apply Z.mod_unique with (q := -1); lia).
      destruct (Z.leb_spec h (x + h * 2)); lia.
    + rewrite Z.mod_small by lia. destruct (Z.leb_spec h x); lia.
  - rewrite <- pow256, half. fold h. intro R. rewrite Z.mod_small by lia. reflexivity.
Qed.
Lemma to_of_bits k u : 0 <= u < 256 ^ Z.of_nat (width k) -> to_bits k (of_bits k u) = u.
Proof.
  intro R. unfold of_bits, to_bits. destruct (signed k && _) eqn:E.
  - rewrite <- (Z_mod_plus_full _ 1). rewrite Z.mod_small; lia.
  - now apply Z.mod_small.
Qed.
Lemma to_bits_range k x : 0 <= to_bits k x < 256 ^ Z.of_nat (width k).
Proof. unfold to_bits. apply Z.mod_pos_bound. destruct k; reflexivity. Qed.
Lemma of_bits_ok k u : 0 <= u < 256 ^ Z.of_nat (width k) -> kind_ok k (of_bits k u).
Proof.
  unfold kind_ok, of_bits. rewrite <- pow256, half. set (h := 2 ^ (8 * Z.of_nat (width k) - 1)).
  assert (Hh : 0 < h) by (unfold h; destruct k; reflexivity). intro R.
  rewrite (Z.mul_comm 2 h), Z.div_mul by lia. destruct (signed k); cbn [andb]; [|lia].
  destruct (Z.leb_spec h u); lia.
Qed.
Lemma layout_eq k x : kind_ok k x -> le_enc (width k) (to_bits k x) = layout k x.
Proof.
  unfold kind_ok, layout, to_bits. rewrite <- pow256, half. set (h := 2 ^ (8 * Z.of_nat (width k) - 1)).
  assert (Hh : 0 < h) by (unfold h; destruct k; reflexivity). intro R.
  f_equal. destruct (Z.ltb_spec x 0).
  - destruct (signed k); [|lia]. symmetry. apply Z.mod_unique with (q := -1); lia.
  - destruct (signed k); apply Z.mod_small; lia.
Qed.
Lemma width_pos k : (1 <= width k)%nat. Proof. destruct k; cbn; lia. Qed.

Lemma skipn_app_len {A} (a b : list A) n : n = length a -> skipn n (a ++ b) = b.
Proof. intros ->. induction a; [reflexivity|exact IHa]. Qed.
Lemma firstn_app_len {A} (a b : list A) n : n = length a -> firstn n (a ++ b) = a.
Proof. intros ->. induction a; [now destruct b|]. cbn. now rewrite IHa. Qed.

Lemma dec_fixed k x rest : kind_ok k x ->
  of_bits k (le_dec (firstn (width k) (layout k x ++ rest))) = x /\ skipn (width k) (layout k x ++ rest) = rest.
Proof.
  intro H. assert (E : length (layout k x) = width k) by apply le_enc_length.
  rewrite firstn_app_len, skipn_app_len by easy. split; [|reflexivity].
  rewrite <- layout_eq by exact H. rewrite le_dec_enc by apply to_bits_range. now apply of_to_bits.
Qed.
Lemma dec_bulk k rest : forall xs, Forall (kind_ok k) xs ->
  bulk_dec k (length xs) (flat_map (layout k) xs ++ rest) = xs /\
  skipn (length xs * width k) (flat_map (layout k) xs ++ rest) = rest.
Proof.
  induction 1 as [|x xs Hx _ [IH1 IH2]]; [split; reflexivity|].
  cbn [flat_map length bulk_dec]. rewrite <- app_assoc.
  destruct (dec_fixed k x (flat_map (layout k) xs ++ rest) Hx) as [A B].
  rewrite A, B, IH1. split; [reflexivity|]. cbn [Nat.mul].
  assert (E : length (layout k x) = width k) by apply le_enc_length.
  rewrite skipn_app, E. replace (width k + length xs * width k - width k)%nat with (length xs * width k)%nat by lia.
  rewrite IH2. rewrite skipn_all2 by lia. reflexivity.
Qed.
Lemma flat_len k xs : length (flat_map (layout k) xs) = (length xs * width k)%nat.
Proof. induction xs; [reflexivity|]. cbn [flat_map length]. rewrite app_length, IHxs. unfold layout. rewrite le_enc_length. lia. Qed.
