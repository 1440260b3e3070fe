(** Shared vocabulary: bytes, little-endian numbers, list helpers. *)
From Coq Require Import ZArith List Lia Bool Arith.
Import ListNotations.
Open Scope Z_scope.

(** A byte is a number in 0..255; byte strings are [list Z]. *)
Definition byte_ok (b : Z) : Prop := 0 <= b < 256.
Definition bytes_ok (l : list Z) : Prop := Forall byte_ok l.

(** Unsigned [k]-bit numbers. *)
Definition u_ok (k : Z) (x : Z) : Prop := 0 <= x < 2 ^ k.
Definition u32_ok (x : Z) : Prop := 0 <= x < 4294967296.
Definition u64_ok (x : Z) : Prop := 0 <= x < 18446744073709551616.

(** Length as a number in Z. *)
Definition zlen {A} (l : list A) : Z := Z.of_nat (length l).

(** encoding/binary LittleEndian.PutUintXX on [n] bytes: byte i = (x >> 8i) & 0xff. *)
Fixpoint le_enc (n : nat) (x : Z) : list Z :=
  match n with
  | O => []
  | S n' => x mod 256 :: le_enc n' (x / 256)
  end.

(** encoding/binary LittleEndian.UintXX. *)
Fixpoint le_dec (l : list Z) : Z :=
  match l with
  | [] => 0
  | b :: l' => b + 256 * le_dec l'
  end.

(** copy(a[off:], d): overwrite [length d] cells of [a] starting at [off]
    (only used when off + length d <= length a). *)
Definition overwrite {A} (a : list A) (off : nat) (d : list A) : list A :=
  firstn off a ++ d ++ skipn (off + length d) a.

Lemma le_enc_length n x : length (le_enc n x) = n.
Proof. revert x; induction n; simpl; intros; auto. Qed.

Lemma le_enc_bytes n x : bytes_ok (le_enc n x).
Proof.
  revert x; induction n; simpl; intros; constructor.
  - unfold byte_ok. apply Z.mod_pos_bound. lia.
  - apply IHn.
Qed.

Lemma le_dec_enc n x : 0 <= x < 256 ^ Z.of_nat n -> le_dec (le_enc n x) = x.
Proof.
  revert x; induction n; cbn [le_enc le_dec]; intros.
  - simpl in H. lia.
  - rewrite IHn.
    + pose proof (Z.div_mod x 256 ltac:(lia)). lia.
    + rewrite Nat2Z.inj_succ, Z.pow_succ_r in H by lia.
      split. apply Z.div_pos; lia. apply Z.div_lt_upper_bound; lia.
Qed.

Lemma le_dec_enc_mod n x : le_dec (le_enc n x) = x mod 256 ^ Z.of_nat n.
Proof.
  revert x; induction n; intros.
  - simpl. rewrite Z.mod_1_r. auto.
  - cbn [le_enc le_dec]. rewrite IHn.
    rewrite Nat2Z.inj_succ, Z.pow_succ_r by lia.
    rewrite Z.rem_mul_r by (try lia; apply Z.pow_pos_nonneg; lia). lia.
Qed.

Lemma le_dec_range l : bytes_ok l -> 0 <= le_dec l < 256 ^ Z.of_nat (length l).
Proof.
  induction 1; cbn [le_dec length].
  - simpl; lia.
  - rewrite Nat2Z.inj_succ, Z.pow_succ_r by lia. unfold byte_ok in H. lia.
Qed.

Lemma le_enc_dec l : bytes_ok l -> le_enc (length l) (le_dec l) = l.
Proof.
  induction 1; cbn [le_dec le_enc length]; auto. unfold byte_ok in H. f_equal.
  - rewrite Z.mul_comm, Z.mod_add by lia. apply Z.mod_small; lia.
  - rewrite Z.mul_comm, Z.div_add by lia. rewrite Z.div_small by lia. auto.
Qed.

Lemma overwrite_length {A} (a : list A) off d :
  (off + length d <= length a)%nat -> length (overwrite a off d) = length a.
Proof.
  intros. unfold overwrite. rewrite !app_length, firstn_length, skipn_length. lia.
Qed.

Lemma firstn_overwrite_lo {A} (a : list A) off d n :
  (n <= off)%nat -> (off <= length a)%nat -> firstn n (overwrite a off d) = firstn n a.
Proof.
  intros. unfold overwrite. rewrite firstn_app, firstn_firstn, firstn_length.
  replace (n - Nat.min off (length a))%nat with 0%nat by lia.
  rewrite Nat.min_l by lia. simpl. rewrite app_nil_r; auto.
Qed.

Lemma firstn_overwrite {A} (a : list A) off d :
  (off <= length a)%nat ->
  firstn (off + length d) (overwrite a off d) = firstn off a ++ d.
Proof.
  intros. unfold overwrite. rewrite app_assoc, firstn_app.
  rewrite app_length, firstn_length, Nat.min_l by lia.
  rewrite Nat.sub_diag. simpl. rewrite app_nil_r.
  rewrite firstn_all2; auto. rewrite app_length, firstn_length. lia.
Qed.

Lemma bytes_ok_app a b : bytes_ok (a ++ b) <-> bytes_ok a /\ bytes_ok b.
Proof. unfold bytes_ok. apply Forall_app. Qed.

Lemma Forall_skipn' {A} (P : A -> Prop) n l : Forall P l -> Forall P (skipn n l).
Proof. revert l; induction n; simpl; intros; auto. destruct l; auto. inversion H; auto. Qed.
Lemma Forall_firstn' {A} (P : A -> Prop) n l : Forall P l -> Forall P (firstn n l).
Proof. revert l; induction n; simpl; intros; auto. destruct l; auto. inversion H; constructor; auto. Qed.

Lemma zlen_app {A} (a b : list A) : zlen (a ++ b) = zlen a + zlen b.
Proof. unfold zlen. rewrite app_length. lia. Qed.
Lemma zlen_nonneg {A} (a : list A) : 0 <= zlen a.
Proof. unfold zlen. lia. Qed.
