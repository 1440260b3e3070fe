(** Proofs about the conversions of FloatModel.v. *)
From Coq Require Import ZArith List Bool Arith Lia.
Import ListNotations.
From Verif Require Import Base PrimModel PrimSpec CodecModel CodecSpec CodecProofs FloatModel FloatSpec.
Open Scope Z_scope.

Lemma pack32_parts s e m : 0 <= s < 2 -> 0 <= e < 256 -> 0 <= m < 2 ^ 23 -> sign32 (pack32 s e m) = s /\ exp32 (pack32 s e m) = e /\ man32 (pack32 s e m) = m.
Proof.
  intros S E M. unfold sign32, exp32, man32, pack32. change (2 ^ 31) with 2147483648 in *. change (2 ^ 23) with 8388608 in *. change (2 ^ 8) with 256. split; [|split].
  - symmetry. apply (Z.div_unique _ _ _ (e * 8388608 + m)); lia.
  - symmetry. apply (Z.mod_unique _ _ s); [lia|]. symmetry. apply (Z.div_unique _ _ _ m); lia.
  - symmetry. apply (Z.mod_unique _ _ (s * 256 + e)); lia.
Qed.
Lemma pack64_parts s e m : 0 <= s < 2 -> 0 <= e < 2048 -> 0 <= m < 2 ^ 52 -> sign64 (pack64 s e m) = s /\ exp64 (pack64 s e m) = e /\ man64 (pack64 s e m) = m.
Proof.
  intros S E M. unfold sign64, exp64, man64, pack64. change (2 ^ 63) with 9223372036854775808 in *. change (2 ^ 52) with 4503599627370496 in *. change (2 ^ 11) with 2048. split; [|split].
  - symmetry. apply (Z.div_unique _ _ _ (e * 4503599627370496 + m)); lia.
  - symmetry. apply (Z.mod_unique _ _ s); [lia|]. symmetry. apply (Z.div_unique _ _ _ m); lia.
  - symmetry. apply (Z.mod_unique _ _ (s * 2048 + e)); lia.
Qed.
Lemma parts32 b : is32 b -> 0 <= sign32 b < 2 /\ 0 <= exp32 b < 256 /\ 0 <= man32 b < 2 ^ 23 /\ b = pack32 (sign32 b) (exp32 b) (man32 b).
Proof.
  unfold is32, sign32, exp32, man32, pack32. change (2 ^ 32) with 4294967296. change (2 ^ 31) with 2147483648. change (2 ^ 23) with 8388608. change (2 ^ 8) with 256. intro H.
  pose proof (Z.div_mod b 8388608 ltac:(lia)). pose proof (Z.mod_pos_bound b 8388608 ltac:(lia)). pose proof (Z.div_mod (b / 8388608) 256 ltac:(lia)). pose proof (Z.mod_pos_bound (b / 8388608) 256 ltac:(lia)).
  assert (E : b / 2147483648 = b / 8388608 / 256) by (rewrite Z.div_div by lia; reflexivity). rewrite E. assert (0 <= b / 8388608 / 256 < 2); [|lia]. lia.
Qed.
Lemma log2_shift n k j : 0 <= k -> 0 <= j -> 2 ^ k <= n < 2 ^ (k + 1) -> Z.log2 (n * 2 ^ j) = k + j.
Proof.
  intros K J [A B]. apply Z.log2_unique; [lia|]. replace (Z.succ (k + j)) with ((k + 1) + j) by lia. rewrite !Z.pow_add_r by lia.
  assert (0 < 2 ^ j) by (apply Z.pow_pos_nonneg; lia). rewrite Z.pow_add_r in B by lia. nia.
Qed.
Lemma nearest_exact n d : 0 < d -> nearest (n * 2 ^ d) d = n.
Proof.
  intro D. unfold nearest. destruct (Z.leb_spec d 0); [lia|]. assert (P : 0 < 2 ^ d) by (apply Z.pow_pos_nonneg; lia).
  rewrite Z.div_mul, Z.mod_mul by lia. destruct (Z.ltb_spec (2 * 0) (2 ^ d)); [reflexivity|lia].
Qed.
(** the normal and subnormal numbers *)
Lemma widen_normal b : is32 b -> 0 < exp32 b < 255 -> widen b = pack64 (sign32 b) (exp32 b + 896) (man32 b * 2 ^ 29).
Proof. intros _ E. unfold widen. destruct (Z.eqb_spec (exp32 b) 255); [lia|]. destruct (Z.eqb_spec (exp32 b) 0); [lia|reflexivity]. Qed.
Lemma widen_small b : is32 b -> exp32 b = 0 -> man32 b <> 0 -> let k := Z.log2 (man32 b) in
  widen b = pack64 (sign32 b) (k + 874) ((man32 b - 2 ^ k) * 2 ^ (52 - k)) /\ 0 <= k < 23 /\ 2 ^ k <= man32 b < 2 ^ (k + 1).
Proof.
  intros H E M k. destruct (parts32 b H) as (_ & _ & B & _). split.
  - unfold widen. rewrite E. change (0 =? 255) with false. change (0 =? 0) with true. destruct (Z.eqb_spec (man32 b) 0); [lia|reflexivity].
  - pose proof (Z.log2_spec (man32 b) ltac:(lia)) as L. fold k in L. assert (N : 0 <= k) by apply Z.log2_nonneg. split; [|exact L]. split; [exact N|]. apply (Z.pow_lt_mono_r_iff 2); lia.
Qed.
Lemma narrow_finite b : exp64 b <> 2047 -> narrow b =
    let n := if exp64 b =? 0 then man64 b else 2 ^ 52 + man64 b in let x := Z.max (exp64 b) 1 - 1075 in let q := Z.max (-149) (Z.log2 n + x - 23) in
    sign64 b * 2 ^ 31 + Z.min (255 * 2 ^ 23) ((q + 149) * 2 ^ 23 + nearest n (q - x)).
Proof. intro E. unfold narrow. now rewrite (proj2 (Z.eqb_neq _ _) E). Qed.
Lemma narrow_widen b : is32 b -> ~ signaling32 b -> narrow (widen b) = b.
Proof.
  intros H N. destruct (parts32 b H) as (S & E & M & P). rewrite P at 2.
  destruct (Z.eq_dec (exp32 b) 255) as [E1|E1]; [|destruct (Z.eq_dec (exp32 b) 0) as [E0|E0]; [destruct (Z.eq_dec (man32 b) 0) as [M0|M0]|]].
  - unfold widen. rewrite E1. change (255 =? 255) with true. cbv iota. set (m := if man32 b =? 0 then 0 else 2 ^ 51 + man32 b mod 2 ^ 22 * 2 ^ 29).
    assert (B : 0 <= m < 2 ^ 52).
    { unfold m. destruct (man32 b =? 0); [lia|]. pose proof (Z.mod_pos_bound (man32 b) (2 ^ 22) ltac:(lia)). change (2 ^ 22) with 4194304 in *. change (2 ^ 29) with 536870912. change (2 ^ 51) with 2251799813685248. change (2 ^ 52) with 4503599627370496. lia. }
    destruct (pack64_parts (sign32 b) 2047 m S ltac:(lia) B) as (Q1 & Q2 & Q3). unfold narrow. rewrite Q1, Q2, Q3. change (2047 =? 2047) with true. cbv iota. f_equal. unfold m.
    destruct (Z.eqb_spec (man32 b) 0) as [->|M0]; [reflexivity|]. pose proof (Z.mod_pos_bound (man32 b) (2 ^ 22) ltac:(lia)) as MB.
    assert (T : man32 b = 2 ^ 22 + man32 b mod 2 ^ 22).
    { assert (2 ^ 22 <= man32 b) by (destruct (Z.le_gt_cases (2 ^ 22) (man32 b)); [assumption|]; exfalso; apply N; split; [now split|lia]). change (2 ^ 22) with 4194304 in *. change (2 ^ 23) with 8388608 in *. 
      pose proof (Z.div_mod (man32 b) 4194304 ltac:(lia)). assert (man32 b / 4194304 = 1); [|lia]. symmetry. apply (Z.div_unique _ _ _ (man32 b - 4194304)); lia. }
    destruct (Z.eqb_spec (2 ^ 51 + man32 b mod 2 ^ 22 * 2 ^ 29) 0); [change (2 ^ 29) with 536870912 in *; change (2 ^ 51) with 2251799813685248 in *; lia|].
    replace ((2 ^ 51 + man32 b mod 2 ^ 22 * 2 ^ 29) / 2 ^ 29) with (2 ^ 22 + man32 b mod 2 ^ 22); [|symmetry; replace (2 ^ 51 + man32 b mod 2 ^ 22 * 2 ^ 29) with ((2 ^ 22 + man32 b mod 2 ^ 22) * 2 ^ 29) by (change (2 ^ 29) with 536870912; change (2 ^ 51) with (4194304 * 536870912); change (2 ^ 22) with 4194304; lia); apply Z.div_mul; lia].
    rewrite T at 2. f_equal. rewrite <- (Z.mul_1_l (2 ^ 22)) at 1. rewrite Z.add_comm, Z.mod_add by lia. apply Z.mod_small. exact MB.
  - unfold widen. rewrite E0, M0. change (0 =? 255) with false. change (0 =? 0) with true. cbv iota. destruct (pack64_parts (sign32 b) 0 0 S ltac:(lia) ltac:(lia)) as (Q1 & Q2 & Q3).
    rewrite narrow_finite by lia. rewrite Q1, Q2, Q3. reflexivity.
  - destruct (widen_small b H E0 M0) as (-> & K & L). set (k := Z.log2 (man32 b)) in *.
    assert (PK : 0 < 2 ^ (52 - k)) by (apply Z.pow_pos_nonneg; lia). assert (PP : 2 ^ k * 2 ^ (52 - k) = 2 ^ 52) by (rewrite <- Z.pow_add_r by lia; f_equal; lia).
    rewrite Z.pow_add_r in L by lia. destruct (pack64_parts (sign32 b) (k + 874) ((man32 b - 2 ^ k) * 2 ^ (52 - k)) S ltac:(lia) ltac:(nia)) as (Q1 & Q2 & Q3).
    rewrite narrow_finite by lia. rewrite Q1, Q2, Q3. cbv zeta. destruct (Z.eqb_spec (k + 874) 0); [lia|]. replace (2 ^ 52 + (man32 b - 2 ^ k) * 2 ^ (52 - k)) with (man32 b * 2 ^ (52 - k)) by lia.
    rewrite (log2_shift (man32 b) k (52 - k)) by (rewrite ?Z.pow_add_r by lia; lia). replace (Z.max (k + 874) 1) with (k + 874) by lia. replace (Z.max (-149) _) with (-149) by lia.
    replace (-149 - (k + 874 - 1075)) with (52 - k) by lia. rewrite nearest_exact by lia. unfold pack32. rewrite E0. f_equal. change (2 ^ 23) with 8388608 in *. lia.
  - rewrite widen_normal by (assumption || lia). destruct (pack64_parts (sign32 b) (exp32 b + 896) (man32 b * 2 ^ 29) S ltac:(lia)) as (Q1 & Q2 & Q3).
    { change (2 ^ 23) with 8388608 in *. change (2 ^ 29) with 536870912. change (2 ^ 52) with 4503599627370496. lia. }
    rewrite narrow_finite by lia. rewrite Q1, Q2, Q3. cbv zeta. destruct (Z.eqb_spec (exp32 b + 896) 0); [lia|].
    replace (2 ^ 52 + man32 b * 2 ^ 29) with ((2 ^ 23 + man32 b) * 2 ^ 29) by (change (2 ^ 52) with (8388608 * 536870912); change (2 ^ 23) with 8388608; change (2 ^ 29) with 536870912; lia).
    rewrite (log2_shift (2 ^ 23 + man32 b) 23 29) by (change (2 ^ (23 + 1)) with (2 * 2 ^ 23); lia). replace (Z.max (exp32 b + 896) 1) with (exp32 b + 896) by lia. replace (Z.max (-149) _) with (exp32 b - 150) by lia.
    replace (exp32 b - 150 - (exp32 b + 896 - 1075)) with 29 by lia. rewrite nearest_exact by lia. unfold pack32. f_equal. change (2 ^ 23) with 8388608 in *. lia.
Qed.
(** the value is kept *)
Lemma widen_exact b : is32 b -> finite32 b -> finite64 (widen b) /\ sign64 (widen b) = sign32 b /\ mag64 (widen b) = mag32 b * 2 ^ 925.
Proof.
  intros H F. unfold finite32 in F. destruct (parts32 b H) as (S & E & M & _). unfold finite64, mag64, mag32.
  destruct (Z.eq_dec (exp32 b) 0) as [E0|E0]; [destruct (Z.eq_dec (man32 b) 0) as [M0|M0]|].
  - unfold widen. rewrite E0, M0. change (0 =? 255) with false. change (0 =? 0) with true. cbv iota. destruct (pack64_parts (sign32 b) 0 0 S ltac:(lia) ltac:(lia)) as (-> & -> & ->). split; [lia|split; reflexivity].
  - destruct (widen_small b H E0 M0) as (-> & K & L). set (k := Z.log2 (man32 b)) in *.
    assert (PK : 0 < 2 ^ (52 - k)) by (apply Z.pow_pos_nonneg; lia). assert (PP : 2 ^ k * 2 ^ (52 - k) = 2 ^ 52) by (rewrite <- Z.pow_add_r by lia; f_equal; lia).
    rewrite Z.pow_add_r in L by lia. destruct (pack64_parts (sign32 b) (k + 874) ((man32 b - 2 ^ k) * 2 ^ (52 - k)) S ltac:(lia) ltac:(nia)) as (-> & -> & ->).
    split; [lia|split; [reflexivity|]]. rewrite E0. change (0 =? 0) with true. destruct (Z.eqb_spec (k + 874) 0); [lia|]. replace (2 ^ 52 + (man32 b - 2 ^ k) * 2 ^ (52 - k)) with (man32 b * 2 ^ (52 - k)) by lia.
    rewrite <- Z.mul_assoc, <- Z.pow_add_r by lia. repeat f_equal. lia.
  - rewrite widen_normal by (assumption || lia). destruct (pack64_parts (sign32 b) (exp32 b + 896) (man32 b * 2 ^ 29) S ltac:(lia)) as (-> & -> & ->).
    { change (2 ^ 23) with 8388608 in *. change (2 ^ 29) with 536870912. change (2 ^ 52) with 4503599627370496. lia. }
    split; [lia|split; [reflexivity|]]. destruct (Z.eqb_spec (exp32 b + 896) 0); [lia|]. destruct (Z.eqb_spec (exp32 b) 0); [lia|].
    replace (2 ^ 52 + man32 b * 2 ^ 29) with ((2 ^ 23 + man32 b) * 2 ^ 29) by (change (2 ^ 52) with (8388608 * 536870912); change (2 ^ 23) with 8388608; change (2 ^ 29) with 536870912; lia).
    rewrite <- !Z.mul_assoc, <- !Z.pow_add_r by lia. do 2 f_equal. lia.
Qed.
Lemma narrow_widen_nan b : is32 b -> nan32 b -> exists m, narrow (widen b) = pack32 (sign32 b) 255 m /\ 2 ^ 22 <= m < 2 ^ 23 /\ m mod 2 ^ 22 = man32 b mod 2 ^ 22.
Proof.
  intros H [E1 M0]. destruct (parts32 b H) as (S & E & M & _). unfold widen. rewrite E1. change (255 =? 255) with true. cbv iota. rewrite (proj2 (Z.eqb_neq _ _) M0). set (r := man32 b mod 2 ^ 22).
  assert (R : 0 <= r < 2 ^ 22) by (apply Z.mod_pos_bound; lia). change (2 ^ 22) with 4194304 in *. change (2 ^ 23) with 8388608 in *.
  destruct (pack64_parts (sign32 b) 2047 (2 ^ 51 + r * 2 ^ 29) S ltac:(lia)) as (Q1 & Q2 & Q3).
  { change (2 ^ 29) with 536870912. change (2 ^ 51) with 2251799813685248. change (2 ^ 52) with 4503599627370496. lia. }
  unfold narrow. rewrite Q1, Q2, Q3. change (2047 =? 2047) with true. cbv iota. destruct (Z.eqb_spec (2 ^ 51 + r * 2 ^ 29) 0); [change (2 ^ 29) with 536870912 in *; change (2 ^ 51) with 2251799813685248 in *; lia|].
  replace ((2 ^ 51 + r * 2 ^ 29) / 2 ^ 29) with (4194304 + r); [|symmetry; replace (2 ^ 51 + r * 2 ^ 29) with ((4194304 + r) * 2 ^ 29) by (change (2 ^ 29) with 536870912; change (2 ^ 51) with (4194304 * 536870912); lia); apply Z.div_mul; lia].
  change (2 ^ 22) with 4194304. replace ((4194304 + r) mod 4194304) with r by (rewrite <- (Z.mul_1_l 4194304) at 1; rewrite Z.add_comm, Z.mod_add by lia; symmetry; apply Z.mod_small; lia).
  exists (4194304 + r). split; [reflexivity|]. split; [lia|]. rewrite <- (Z.mul_1_l 4194304) at 1. rewrite Z.add_comm, Z.mod_add by lia. apply Z.mod_small. lia.
Qed.

(** ** Values of any type *)
Lemma map_same {A} (f : A -> A) l : (forall x, In x l -> f x = x) -> map f l = l.
Proof. induction l as [|x l IH]; intro H; cbn [map]; [reflexivity|]. rewrite (H x) by now left. f_equal. apply IH. intros y Hy. apply H. now right. Qed.
Lemma conv_list t addr : (forall v v', calm t v -> same t v v' -> conv addr t v' = v') -> forall l l', Forall (calm t) l -> Forall2 (same t) l l' -> map (conv addr t) l' = l'.
Proof. intros H l l' C R. induction R as [|x y l l' R1 R IH]; [reflexivity|]. apply Forall_cons_iff in C. destruct C as [C1 C]. cbn [map]. rewrite (H x y C1 R1), (IH C). reflexivity. Qed.
Lemma conv_calm : (forall t addr v v', calm t v -> same t v v' -> conv addr t v' = v') /\ (forall fs addr vs vs', calm_flds fs vs -> same_flds fs vs vs' -> conv_flds addr fs vs' = vs').
Proof.
  apply ty_flds_ind.
  - intros k addr v v' C R. cbn [same] in R. subst v'. destruct k; try reflexivity. destruct C as [C1 C2]. exact (narrow_widen v C1 C2).
  - reflexivity.
  - reflexivity.
  - intros n t IH addr v v' C R. destruct t; try exact (conv_list _ addr (IH addr) v v' C R). cbn [conv]. destruct addr; [reflexivity|exact (conv_list (TNum k) false (IH false) v v' C R)].
  - intros t IH addr v v' C R. destruct t; try exact (conv_list _ true (IH true) v v' C R). reflexivity.
  - intros t IH addr v v' C R. cbn [conv]. destruct v as [v|], v' as [v'|]; try destruct R; [|reflexivity]. cbn [option_map]. f_equal. exact (IH true v v' C R).
  - intros fs IH addr v v' C R. exact (IH addr v v' C R).
  - intros addr vs vs' _ _. reflexivity.
  - intros tg t IHt fs IHf addr [v vs] [v' vs'] [C1 C2] [R1 R2]. cbn [conv_flds]. rewrite (IHf addr vs vs' C2 R2). destruct tg; try rewrite (IHt addr v v' C1 R1); reflexivity.
Qed.
Lemma same_refl : (forall t v, same t v v) /\ (forall fs vs, same_flds fs vs vs).
Proof.
  apply ty_flds_ind; try reflexivity.
  - intros n t IH v. cbn [same]. induction v; constructor; [apply IH|assumption].
  - intros t IH v. cbn [same]. induction v; constructor; [apply IH|assumption].
  - intros t IH [v|]; [apply IH|exact Logic.I].
  - intros fs IH v. exact (IH v).
  - intros tg t IHt fs IHf [v vs]. split; [destruct tg; auto|apply IHf].
Qed.
