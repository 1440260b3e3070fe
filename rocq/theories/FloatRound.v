(** The conversion of a float64 to a float32 in FloatModel.v is the rounding of IEEE 754: to the nearest, ties to even. *)
From Coq Require Import ZArith List Bool Arith Lia.
Import ListNotations.
From Verif Require Import Base PrimModel CodecModel FloatModel FloatSpec FloatProofs.
Open Scope Z_scope.

Lemma pow_pos k : 0 <= k -> 0 < 2 ^ k.
Proof. intros. apply Z.pow_pos_nonneg; lia. Qed.
Lemma nearest_half n d : 0 < d -> let N := nearest n d in
  - 2 ^ d <= 2 * (n - N * 2 ^ d) <= 2 ^ d /\ (2 * (n - N * 2 ^ d) = 2 ^ d \/ 2 * (n - N * 2 ^ d) = - 2 ^ d -> Z.even N = true).
Proof.
  intros D N. unfold N, nearest. destruct (Z.leb_spec d 0); [lia|]. pose proof (pow_pos d ltac:(lia)) as P.
  pose proof (Z.div_mod n (2 ^ d) ltac:(lia)) as E. pose proof (Z.mod_pos_bound n (2 ^ d) P) as B.
  set (a := n / 2 ^ d) in *. set (r := n mod 2 ^ d) in *. destruct (Z.ltb_spec (2 * r) (2 ^ d)); [split; nia|].
  destruct (Z.ltb_spec (2 ^ d) (2 * r)); [split; nia|]. destruct (Z.even a) eqn:V; [split; [nia|auto]|]. split; [nia|]. intros _.
  rewrite Z.even_add, V. reflexivity.
Qed.
(** no multiple of 2^d is nearer, and of two that are as near the even one is taken *)
Lemma nearest_best n d k : 0 < d -> let N := nearest n d in
  Z.abs (n - N * 2 ^ d) <= Z.abs (n - k * 2 ^ d) /\ (Z.abs (n - N * 2 ^ d) = Z.abs (n - k * 2 ^ d) -> k = N \/ Z.even N = true).
Proof.
  intros D N. destruct (nearest_half n d D) as [H V]. fold N in H, V. pose proof (pow_pos d ltac:(lia)) as P. set (p := 2 ^ d) in *.
  destruct (Z.eq_dec k N) as [->|NE]; [split; [lia|auto]|].
  assert (X : n - k * p = (n - N * p) + (N - k) * p) by ring. rewrite X. set (e := n - N * p) in *.
  assert (Y : (N - k) * p <= - p \/ p <= (N - k) * p) by nia. split; [lia|]. intros Z. right. apply V. lia.
Qed.
Lemma nearest_range n d lo hi : 0 < d -> lo * 2 ^ d <= n <= hi * 2 ^ d -> lo <= nearest n d <= hi.
Proof.
  intros D H. destruct (nearest_half n d D) as [B _]. pose proof (pow_pos d ltac:(lia)) as P. set (p := 2 ^ d) in *. set (N := nearest n d) in *. nia.
Qed.

(** the number of a float32 without its sign bit: N units of 2^Q *)
Lemma mag_parts s Q N : 0 <= s < 2 -> 0 <= Q -> 0 <= N <= 2 ^ 24 -> (Q = 0 \/ 2 ^ 23 <= N) -> Q * 2 ^ 23 + N < 255 * 2 ^ 23 ->
  let b := s * 2 ^ 31 + (Q * 2 ^ 23 + N) in
  is32 b /\ finite32 b /\ sign32 b = s /\ mag32 b = N * 2 ^ Q /\ Z.even (man32 b) = Z.even N.
Proof.
  intros S QP HN C L b. change (2 ^ 24) with 16777216 in *. change (2 ^ 23) with 8388608 in *.
  assert (G : exists e m, 0 <= e < 255 /\ 0 <= m < 8388608 /\ Q * 8388608 + N = e * 8388608 + m /\ (if e =? 0 then m else (8388608 + m) * 2 ^ (e - 1)) = N * 2 ^ Q /\ Z.even m = Z.even N).
  { destruct (Z_lt_le_dec N 8388608) as [L1|L1]; [|destruct (Z_lt_le_dec N 16777216) as [L2|L2]].
    - assert (Q = 0) by lia. subst Q. exists 0, N. repeat split; try lia. cbn [Z.eqb]. change (2 ^ 0) with 1. lia.
    - exists (Q + 1), (N - 8388608). repeat split; try lia.
      + destruct (Z.eqb_spec (Q + 1) 0); [lia|]. replace (Q + 1 - 1) with Q by lia. f_equal. lia.
      + rewrite Z.even_sub. change (Z.even 8388608) with true. now destruct (Z.even N).
    - assert (N = 16777216) by lia. subst N. exists (Q + 2), 0. repeat split; try lia.
      destruct (Z.eqb_spec (Q + 2) 0); [lia|]. replace (Q + 2 - 1) with (1 + Q) by lia. rewrite Z.pow_add_r by lia. change (2 ^ 1) with 2. ring. }
  destruct G as (e & m & HE & HM & EQ & V & EV). destruct (pack32_parts s e m S ltac:(lia) ltac:(change (2 ^ 23) with 8388608; lia)) as (A1 & A2 & A3).
  assert (B : b = pack32 s e m) by (unfold b, pack32; change (2 ^ 23) with 8388608; lia). unfold finite32, mag32. rewrite B, A1, A2, A3. split.
  - unfold is32, pack32. change (2 ^ 32) with 4294967296. change (2 ^ 31) with 2147483648. change (2 ^ 23) with 8388608. lia.
  - split; [lia|]. split; [reflexivity|]. split; [exact V|exact EV].
Qed.
(** every finite float32 is such a number *)
Lemma mag_form y : is32 y -> finite32 y -> exists M P, mag32 y = M * 2 ^ P /\ 0 <= P /\ 0 <= M < 2 ^ 24.
Proof.
  intros H F. destruct (parts32 y H) as (_ & E & M & _). unfold finite32 in F. change (2 ^ 23) with 8388608 in M. change (2 ^ 24) with 16777216. unfold mag32. change (2 ^ 23) with 8388608. destruct (Z.eqb_spec (exp32 y) 0).
  - exists (man32 y), 0. change (2 ^ 0) with 1. lia.
  - exists (8388608 + man32 y), (exp32 y - 1). lia.
Qed.

Lemma parts64 b : is64 b -> 0 <= sign64 b < 2 /\ 0 <= exp64 b < 2048 /\ 0 <= man64 b < 2 ^ 52.
Proof.
  unfold is64, sign64, exp64, man64. change (2 ^ 64) with 18446744073709551616. change (2 ^ 63) with 9223372036854775808. change (2 ^ 52) with 4503599627370496. change (2 ^ 11) with 2048. intro H.
  pose proof (Z.mod_pos_bound b 4503599627370496 ltac:(lia)). pose proof (Z.mod_pos_bound (b / 4503599627370496) 2048 ltac:(lia)).
  split; [|lia]. split; [apply Z.div_pos; lia|apply Z.div_lt_upper_bound; lia].
Qed.

(** what narrow does: N units of 2^Q, the number nearest to v among the multiples of 2^Q; v is in units of 2^-1074 *)
Lemma narrow_form b : is64 b -> finite64 b -> exists Q N,
  narrow b = sign64 b * 2 ^ 31 + Z.min (255 * 2 ^ 23) (Q * 2 ^ 23 + N) /\ 0 <= Q /\ 0 <= N <= 2 ^ 24 /\ (Q = 0 \/ 2 ^ 23 <= N) /\
  (0 < Q -> 2 ^ 23 * 2 ^ Q * 2 ^ 925 <= mag64 b) /\
  forall k, Z.abs (mag64 b - N * 2 ^ Q * 2 ^ 925) <= Z.abs (mag64 b - k * 2 ^ Q * 2 ^ 925) /\
    (Z.abs (mag64 b - N * 2 ^ Q * 2 ^ 925) = Z.abs (mag64 b - k * 2 ^ Q * 2 ^ 925) -> k = N \/ Z.even N = true).
Proof.
  intros H F. destruct (parts64 b H) as (S & E & M). rewrite (narrow_finite b F). cbv zeta. unfold finite64 in F.
  set (n := if exp64 b =? 0 then man64 b else 2 ^ 52 + man64 b). set (x := Z.max (exp64 b) 1 - 1075).
  assert (MG : mag64 b = n * 2 ^ (x + 1074)).
  { unfold mag64, n, x. destruct (Z.eqb_spec (exp64 b) 0) as [->|]; [change (Z.max 0 1 - 1075 + 1074) with 0; change (2 ^ 0) with 1; lia|].
    f_equal. f_equal. lia. }
  assert (XP : 0 <= x + 1074) by (unfold x; lia).
  assert (NP : 0 <= n < 2 ^ 53).
  { change (2 ^ 53) with 9007199254740992. unfold n. change (2 ^ 52) with 4503599627370496 in *. destruct (exp64 b =? 0); lia. }
  set (q := Z.max (-149) (Z.log2 n + x - 23)). exists (q + 149), (nearest n (q - x)). split; [reflexivity|].
  assert (QP : 0 <= q + 149) by (unfold q; lia). split; [exact QP|].
  assert (PX : 0 < 2 ^ (x + 1074)) by (apply pow_pos; lia).
  (* bounds of n in units of 2^(q-x) *)
  assert (UP : forall d, d = q - x -> (0 <= d -> n <= 2 ^ 24 * 2 ^ d) /\ (d < 0 -> n * 2 ^ (- d) <= 2 ^ 24)).
  { intros d ->. destruct (Z.eq_dec n 0) as [Z0|NZ].
    - rewrite Z0. split; intros; [pose proof (pow_pos (q - x) ltac:(lia)); lia|]. rewrite Z.mul_0_l. apply Z.lt_le_incl, pow_pos. lia.
    - pose proof (Z.log2_spec n ltac:(lia)) as [_ LG]. assert (LQ : Z.succ (Z.log2 n) <= 24 + (q - x)) by (unfold q; lia). split; intros HD.
      + rewrite <- Z.pow_add_r by lia. pose proof (Z.pow_le_mono_r 2 _ _ ltac:(lia) LQ). lia.
      + pose proof (Z.pow_le_mono_r 2 _ _ ltac:(lia) LQ) as LE. replace (2 ^ 24) with (2 ^ (24 + (q - x)) * 2 ^ (- (q - x))).
        * pose proof (pow_pos (- (q - x)) ltac:(lia)). nia.
        * assert (0 <= 24 + (q - x)) by (pose proof (Z.log2_nonneg n); lia). rewrite <- Z.pow_add_r by lia. f_equal. lia. }
  destruct (UP _ eq_refl) as [UP1 UP2]. clear UP.
  assert (X0 : n = 0 -> x = -1074).
  { unfold n, x. intros Z0. change (2 ^ 52) with 4503599627370496 in *. destruct (Z.eqb_spec (exp64 b) 0) as [->|]; [reflexivity|lia]. }
  assert (LOW : 0 < q + 149 -> n <> 0 /\ Z.log2 n = 23 + (q - x)).
  { intros HQ. split; [|unfold q in *; lia]. intros Z0. specialize (X0 Z0). unfold q in HQ. rewrite X0, Z0 in HQ. change (Z.log2 0) with 0 in HQ. lia. }
  assert (LB : 0 < q + 149 -> (0 <= q - x -> 2 ^ 23 * 2 ^ (q - x) <= n) /\ (q - x < 0 -> 2 ^ 23 <= n * 2 ^ (- (q - x)))).
  { intros HQ. destruct (LOW HQ) as [NZ LG]. pose proof (Z.log2_spec n ltac:(lia)) as [LO _]. rewrite LG in LO. pose proof (Z.log2_nonneg n). split; intros HD.
    - rewrite <- Z.pow_add_r by lia. exact LO.
    - replace (2 ^ 23) with (2 ^ (23 + (q - x)) * 2 ^ (- (q - x))); [pose proof (pow_pos (- (q - x)) ltac:(lia)); nia|]. rewrite <- Z.pow_add_r by lia. f_equal. lia. }
  assert (UN : forall d, d = q - x -> 0 <= d -> 2 ^ (q + 149) * 2 ^ 925 = 2 ^ d * 2 ^ (x + 1074)) by (intros d -> D; rewrite <- !Z.pow_add_r by lia; f_equal; lia).
  assert (UN2 : q - x < 0 -> 2 ^ (x + 1074) = 2 ^ (- (q - x)) * (2 ^ (q + 149) * 2 ^ 925)) by (intros D; rewrite <- !Z.pow_add_r by lia; f_equal; lia).
  specialize (UN _ eq_refl). destruct (Z_lt_le_dec 0 (q - x)) as [D|D].
  - specialize (UP1 ltac:(lia)). specialize (UN ltac:(lia)). pose proof (pow_pos (q - x) ltac:(lia)) as PD.
    assert (R : 0 <= nearest n (q - x) <= 2 ^ 24) by (apply nearest_range; [exact D|lia]). split; [exact R|]. split; [|split].
    + destruct (Z.eq_dec (q + 149) 0) as [Z|Z]; [now left|right]. destruct (LB ltac:(lia)) as [L1 _]. specialize (L1 ltac:(lia)).
      apply (nearest_range n (q - x) (2 ^ 23) (2 ^ 24)); [exact D|lia].
    + intros Z. destruct (LB Z) as [L1 _]. specialize (L1 ltac:(lia)). rewrite MG, <- Z.mul_assoc, UN. rewrite !Z.mul_assoc. apply Z.mul_le_mono_nonneg_r; [lia|exact L1].
    + intros k. rewrite MG, <- !Z.mul_assoc, UN, !Z.mul_assoc, <- !Z.mul_sub_distr_r, !Z.abs_mul. set (w := Z.abs (2 ^ (x + 1074))). assert (W : 0 < w) by (unfold w; lia).
      destruct (nearest_best n (q - x) k D) as [B1 B2]. split; [apply Z.mul_le_mono_nonneg_r; [lia|exact B1]|]. intros Z. apply B2. apply (Z.mul_cancel_r _ _ w); [lia|exact Z].
  - assert (NE : nearest n (q - x) = n * 2 ^ (- (q - x))) by (unfold nearest; destruct (Z.leb_spec (q - x) 0); [reflexivity|lia]). rewrite NE.
    assert (EX : mag64 b = n * 2 ^ (- (q - x)) * 2 ^ (q + 149) * 2 ^ 925).
    { rewrite MG. destruct (Z.eq_dec (q - x) 0) as [Z|Z].
      - rewrite Z in *. change (2 ^ - 0) with 1. specialize (UN ltac:(lia)). change (2 ^ 0) with 1 in UN. rewrite <- Z.mul_assoc, UN. ring.
      - rewrite (UN2 ltac:(lia)). ring. }
    assert (R : 0 <= n * 2 ^ (- (q - x)) <= 2 ^ 24).
    { pose proof (pow_pos (- (q - x)) ltac:(lia)). split; [nia|]. destruct (Z.eq_dec (q - x) 0) as [Z|Z]; [|apply UP2; lia]. rewrite Z in *. change (2 ^ - 0) with 1. change (2 ^ 0) with 1 in UP1. lia. }
    assert (R2 : 0 < q + 149 -> 2 ^ 23 <= n * 2 ^ (- (q - x))).
    { intros Z. destruct (LB Z) as [L1 L2]. destruct (Z.eq_dec (q - x) 0) as [Z'|Z']; [|apply L2; lia]. rewrite Z' in *. change (2 ^ - 0) with 1. change (2 ^ 0) with 1 in L1. lia. }
    set (N := n * 2 ^ (- (q - x))) in *. split; [exact R|]. split; [lia|]. rewrite EX. split.
    + intros Z. specialize (R2 Z). pose proof (pow_pos (q + 149) ltac:(lia)). pose proof (pow_pos 925 ltac:(lia)). do 2 (apply Z.mul_le_mono_nonneg_r; [lia|]). exact R2.
    + intros k. rewrite Z.sub_diag. split; [lia|]. intros Z. left. rewrite <- !Z.mul_sub_distr_r in Z. apply Z.abs_0_iff in Z || (symmetry in Z; do 2 (try apply (proj1 (Z.abs_0_iff _)) in Z)). try apply (proj1 (Z.abs_0_iff _)) in Z.
      pose proof (pow_pos (q + 149) ltac:(lia)). pose proof (pow_pos 925 ltac:(lia)). apply Z.mul_eq_0 in Z as [Z|Z]; [|lia]. apply Z.mul_eq_0 in Z as [Z|Z]; lia.
Qed.

(** For every float64: the float32 it becomes has its sign, and no float32 is nearer; of two that are as near, it is the one whose last bit is 0. *)
Theorem C135_narrow_is_nearest b : is64 b -> finite64 b -> finite32 (narrow b) ->
  is32 (narrow b) /\ sign32 (narrow b) = sign64 b /\
  forall y, is32 y -> finite32 y ->
    Z.abs (mag64 b - mag32 (narrow b) * 2 ^ 925) <= Z.abs (mag64 b - mag32 y * 2 ^ 925) /\
    (Z.abs (mag64 b - mag32 (narrow b) * 2 ^ 925) = Z.abs (mag64 b - mag32 y * 2 ^ 925) -> mag32 y = mag32 (narrow b) \/ Z.even (man32 (narrow b)) = true).
Proof.
  intros H F FN. destruct (parts64 b H) as (S & _). destruct (narrow_form b H F) as (Q & N & EN & QP & NR & C & LO & BEST).
  destruct (Z_lt_le_dec (Q * 2 ^ 23 + N) (255 * 2 ^ 23)) as [L|L].
  2:{ exfalso. rewrite Z.min_l in EN by exact L. unfold finite32 in FN. rewrite EN in FN. destruct (pack32_parts (sign64 b) 255 0 S ltac:(lia) ltac:(lia)) as (_ & X & _). apply FN. replace (sign64 b * 2 ^ 31 + 255 * 2 ^ 23) with (pack32 (sign64 b) 255 0) by (unfold pack32; lia). exact X. }
  rewrite Z.min_r in EN by lia. destruct (mag_parts (sign64 b) Q N S QP NR C L) as (A1 & A2 & A3 & A4 & A5). rewrite <- EN in *.
  split; [exact A1|]. split; [exact A3|]. intros y HY FY. destruct (mag_form y HY FY) as (M & P & EM & PP & MR). rewrite A4, EM, A5.
  destruct (Z_lt_le_dec P Q) as [LT|LE].
  - specialize (LO ltac:(lia)). destruct (BEST (2 ^ 23)) as [B1 _].
    assert (Y : M * 2 ^ P < 2 ^ 23 * 2 ^ Q).
    { replace Q with (P + 1 + (Q - P - 1)) by lia. rewrite !Z.pow_add_r by lia. change (2 ^ 24) with 16777216 in MR. change (2 ^ 23) with 8388608. change (2 ^ 1) with 2.
      pose proof (pow_pos P PP). pose proof (pow_pos (Q - P - 1) ltac:(lia)). set (p := 2 ^ P) in *. set (w := 2 ^ (Q - P - 1)) in *. nia. }
    pose proof (pow_pos 925 ltac:(lia)) as PC. set (cc := 2 ^ 925) in *. set (yy := M * 2 ^ P) in *. set (zz := 2 ^ 23 * 2 ^ Q) in *. assert (yy * cc < zz * cc) by nia. split; lia.
  - assert (EY : M * 2 ^ P = (M * 2 ^ (P - Q)) * 2 ^ Q) by (rewrite <- Z.mul_assoc, <- Z.pow_add_r by lia; f_equal; f_equal; lia). rewrite EY.
    destruct (BEST (M * 2 ^ (P - Q))) as [B1 B2]. split; [exact B1|]. intros Z. destruct (B2 Z) as [->|B3]; auto.
Qed.

(** It becomes infinite exactly from half a unit above the largest float32. *)
Theorem C135_narrow_overflow b : is64 b -> finite64 b -> (finite32 (narrow b) <-> 2 * mag64 b < (2 ^ 25 - 1) * 2 ^ 253 * 2 ^ 925).
Proof.
  intros H F. destruct (parts64 b H) as (S & _). destruct (narrow_form b H F) as (Q & N & EN & QP & NR & C & LO & BEST).
  change (2 ^ 25) with 33554432. change (2 ^ 24) with 16777216 in *. change (2 ^ 23) with 8388608 in *. pose proof (pow_pos 925 ltac:(lia)) as PC.
  set (cc := 2 ^ 925) in *. set (v := mag64 b) in *.
  destruct (Z_lt_le_dec (Q * 8388608 + N) (255 * 8388608)) as [L|L].
  - split; [intros _|].
    + assert (Q <= 253) by lia. destruct (Z.eq_dec Q 253) as [->|NQ].
      * destruct (BEST 16777216) as [B1 B2]. set (w := 2 ^ 253 * cc). assert (W : 0 < w) by (unfold w; pose proof (pow_pos 253 ltac:(lia)); nia).
        rewrite <- !Z.mul_assoc in *. fold w in B1, B2 |- *.
        assert (NL : N <= 16777215) by lia. destruct (Z.eq_dec N 16777215) as [->|NN].
        -- destruct (Z.eq_dec (Z.abs (v - 16777215 * w)) (Z.abs (v - 16777216 * w))) as [T|T]; [destruct (B2 T) as [X|X]; [lia|discriminate]|]. lia.
        -- assert (N * w <= 16777214 * w) by (apply Z.mul_le_mono_nonneg_r; lia). lia.
      * destruct (BEST (N + 1)) as [B1 _]. set (w := 2 ^ Q * cc). pose proof (pow_pos Q QP) as PQ. assert (W : 0 < w) by (unfold w; nia).
        assert (WL : 2 * w <= 2 ^ 253 * cc). { unfold w. rewrite Z.mul_assoc. apply Z.mul_le_mono_nonneg_r; [lia|]. change 2 with (2 ^ 1) at 1. rewrite <- Z.pow_add_r by lia. apply Z.pow_le_mono_r; lia. }
        rewrite <- !Z.mul_assoc in *. fold w in B1. set (z := 2 ^ 253 * cc) in *. assert (N * w <= 16777216 * w) by (apply Z.mul_le_mono_nonneg_r; lia). lia.
    + intros _. rewrite Z.min_r in EN by lia.
      destruct (mag_parts (sign64 b) Q N S QP ltac:(change (2 ^ 24) with 16777216; lia) ltac:(change (2 ^ 23) with 8388608; lia) ltac:(change (2 ^ 23) with 8388608; lia)) as (_ & A2 & _).
      change (2 ^ 23) with 8388608 in A2. rewrite <- EN in A2. exact A2.
  - split.
    + intros FN. exfalso. rewrite Z.min_l in EN by exact L. unfold finite32 in FN. rewrite EN in FN. destruct (pack32_parts (sign64 b) 255 0 S ltac:(lia) ltac:(lia)) as (_ & X & _).
      apply FN. replace (sign64 b * 2 ^ 31 + 255 * 8388608) with (pack32 (sign64 b) 255 0) by (unfold pack32; change (2 ^ 23) with 8388608; lia). exact X.
    + intros V. exfalso. destruct (Z.eq_dec Q 253) as [->|NQ].
      * assert (N = 16777216) by lia. subst N. destruct (BEST 16777215) as [B1 _]. set (w := 2 ^ 253 * cc) in *. assert (W : 0 < w) by (unfold w; pose proof (pow_pos 253 ltac:(lia)); nia).
        rewrite <- !Z.mul_assoc in *. fold w in B1, V. lia.
      * specialize (LO ltac:(lia)). assert (254 <= Q) by lia. pose proof (Z.pow_le_mono_r 2 254 Q ltac:(lia) ltac:(lia)) as PL. change 254 with (1 + 253) in PL. rewrite Z.pow_add_r in PL by lia. change (2 ^ 1) with 2 in PL.
        pose proof (pow_pos 253 ltac:(lia)) as P3. set (a := 2 ^ 253) in *. set (d := 2 ^ Q) in *.
        assert (X1 : 2 * a * cc <= d * cc) by (apply Z.mul_le_mono_nonneg_r; lia). rewrite <- !Z.mul_assoc in *. set (w := a * cc) in *. assert (0 < w) by (unfold w; nia). lia.
Qed.
(** a number that is not a float32: 0.5 + 2^-53 *)
Example C135_narrow_case : let b := 4602678819172646913 in
  is64 b /\ finite64 b /\ finite32 (narrow b) /\ mag64 b <> mag32 (narrow b) * 2 ^ 925.
Proof. cbv zeta. unfold is64, finite64, finite32. split; [split; vm_compute; congruence|]. split; [vm_compute; congruence|]. split; [vm_compute; congruence|]. vm_compute. congruence. Qed.
(** a tie: 1 + 2^-24 lies between 1 and 1 + 2^-23, and 1 is taken *)
Example C135_narrow_tie : let b := pack64 0 1023 (2 ^ 28) in narrow b = pack32 0 127 0 /\
  Z.abs (mag64 b - mag32 (pack32 0 127 0) * 2 ^ 925) = Z.abs (mag64 b - mag32 (pack32 0 127 1) * 2 ^ 925).
Proof. split; vm_compute; reflexivity. Qed.
Print Assumptions C135_narrow_is_nearest.
Print Assumptions C135_narrow_overflow.
