(** C135: float32 values on their way through package reflect. *)
From Coq Require Import ZArith List Bool Arith Lia.
Import ListNotations.
From Verif Require Import Base PrimModel PrimSpec CodecModel CodecSpec CodecProofs CodecRead CodecProps FloatModel FloatSpec FloatProofs.
Open Scope Z_scope.

(** a float32 that is a number, infinite or a quiet NaN comes out of the two conversions bit by bit as it was; in between
    it has the same value *)
Theorem C135_same_bits b : is32 b -> ~ signaling32 b -> narrow (widen b) = b.
Proof. exact (narrow_widen b). Qed.
Theorem C135_same_value b : is32 b -> finite32 b -> finite64 (widen b) /\ sign64 (widen b) = sign32 b /\ mag64 (widen b) = mag32 b * 2 ^ 925.
Proof. exact (widen_exact b). Qed.
(** a NaN comes out as a NaN of the same sign *)
Theorem C135_nan b : is32 b -> nan32 b -> is32 (narrow (widen b)) /\ nan32 (narrow (widen b)) /\ ~ signaling32 (narrow (widen b)) /\ sign32 (narrow (widen b)) = sign32 b.
Proof.
  intros H N. destruct (parts32 b H) as (S & _). destruct (narrow_widen_nan b H N) as (m & -> & M & _). destruct (pack32_parts (sign32 b) 255 m S ltac:(lia) ltac:(lia)) as (Q1 & Q2 & Q3).
  unfold nan32, signaling32. rewrite Q1, Q2, Q3. split; [|split; [split; [reflexivity|lia]|split; [lia|reflexivity]]]. unfold is32, pack32. change (2 ^ 32) with 4294967296. change (2 ^ 31) with 2147483648. change (2 ^ 23) with 8388608 in *. lia.
Qed.
(** but every signaling NaN is changed *)
Theorem C135_signaling_refuted b : is32 b -> signaling32 b -> narrow (widen b) <> b.
Proof. intros H [N L] E. destruct (C135_nan b H N) as (_ & N2 & S2 & _). apply S2. split; [exact N2|]. rewrite E. exact L. Qed.

Lemma layout32 b : is32 b -> layout F32 b = le_enc 4 b.
Proof. intros [H _]. unfold layout. destruct (Z.ltb_spec b 0); [lia|reflexivity]. Qed.
(** a float32 field: the bytes of the number, and the same number when they are read *)
Theorem C135_field_partial b rest al : is32 b -> ~ signaling32 b -> wFloat32Val b = le_enc 4 b /\ rFloat32Val (st0 (wFloat32Val b ++ rest) al) = Ok (b, st0 rest al).
Proof.
  intros H N. unfold wFloat32Val, rFloat32Val. rewrite (narrow_widen b H N), put_fixed by exact H. split; [now apply layout32|]. rewrite call_fixed by exact H. cbn [bind num]. now rewrite (narrow_widen b H N).
Qed.
Theorem C135_slice_partial addr xs : Forall (fun b => is32 b /\ ~ signaling32 b) xs -> wFloat32slVal addr xs = flat_map (le_enc 4) xs.
Proof.
  intro F. replace (flat_map (le_enc 4) xs) with (flat_map (layout F32) xs).
  - rewrite <- (slVal_ok addr F32 xs); [|left; discriminate|eapply Forall_impl; [|exact F]; intros b [H _]; exact H].
    destruct xs as [|x xs]; [reflexivity|]. destruct addr; [reflexivity|]. unfold wFloat32slVal, slVal. induction F as [|b l [H N] F IH]; [reflexivity|]. cbn [flat_map]. f_equal; [|exact IH]. unfold wFloat32Val. now rewrite (narrow_widen b H N).
  - induction F as [|b l [H N] F IH]; [reflexivity|]. cbn [flat_map]. rewrite IH. f_equal. now apply layout32.
Qed.
(** a slice written element by element and one written as a whole differ *)
Theorem C135_slice_refuted : let b := 2139095041 in is32 b /\ signaling32 b /\ wFloat32slVal true [b] <> wFloat32slVal false [b].
Proof. repeat split; vm_compute; congruence. Qed.

(** values of all types that C18 is about: read back as they were written *)
Theorem C135_values_partial t v old rest al : good t = true -> fits t v -> calm t v -> shaped t old ->
  exists b v' al', WriteF t v = Ok b /\ ReadF t old (st0 (b ++ rest) al) = Ok (v', st0 rest al') /\ same t v v'.
Proof.
  intros G F C S. destruct (C18_read_inverts_write_partial t v old rest al G F S) as (b & v' & al' & W & R & Q & _). exists b, v', al'.
  assert (E1 : conv false t v = v) by (apply (proj1 conv_calm t false v v C), same_refl). assert (E2 : conv true t v' = v') by exact (proj1 conv_calm t true v v' C Q).
  destruct t; unfold WriteF, ReadF; try (rewrite E1, R; cbn [bind]; rewrite E2); repeat split; assumption.
Qed.

(** ** Cases *)
Definition price : ty := TStruct (FCons TgAuto (TNum F32) (FCons TgAuto (TSl (TNum F32)) FNil)).
(** 0.1, and -0, the smallest number, infinity, a quiet NaN *)
Definition price_v : val price := (1036831949, ([2147483648; 1; 2139095040; 2143289344], tt)).
Example C135_meets : good price = true /\ fits price price_v /\ calm price price_v /\ shaped price (zero price).
Proof.
  split; [reflexivity|split; [|split; [|exact (proj1 zero_shaped price)]]].
  - unfold price_v. cbn. repeat (split; try lia; try reflexivity); repeat constructor; unfold kind_ok; cbn; lia.
  - unfold price_v. split; [split; [split; reflexivity + discriminate|intros [[E _] _]; vm_compute in E; discriminate]|]. split; [|exact Logic.I].
    repeat constructor; try (vm_compute; congruence); try (intros [[E M] L]; vm_compute in E, M, L; congruence).
Qed.
Example C135_values : map (fun b => narrow (widen b)) [1036831949; 2147483648; 1; 8388607; 8388608; 2139095039; 2139095040; 2143289344; 4290772993] =
  [1036831949; 2147483648; 1; 8388607; 8388608; 2139095039; 2139095040; 2143289344; 4290772993] /\ widen 1036831949 = 4591870180174331904 /\ widen 1 = 3936146074321813504.
Proof. vm_compute. repeat split. Qed.
(** 0.1 as a float64 is not a float32; the nearest one, and a number that rounds to infinity *)
Example C135_rounding : narrow 4591870180066957722 = 1036831949 /\ narrow 5183643170835005440 = 2139095040 /\ narrow 5183643170835005439 = 2139095039 /\ narrow 5183643170566569984 = 2139095039 /\ narrow 1 = 0.
Proof. vm_compute. repeat split. Qed.

Print Assumptions C135_same_bits.
Print Assumptions C135_same_value.
Print Assumptions C135_nan.
Print Assumptions C135_signaling_refuted.
Print Assumptions C135_field_partial.
Print Assumptions C135_slice_partial.
Print Assumptions C135_slice_refuted.
Print Assumptions C135_values_partial.
