(** SliceReader/HeaderReader: refinement to the byte stream, and immutability of results. *)
From Coq Require Import ZArith List Bool Arith Lia.
Import ListNotations.
From Verif Require Import Base WireModel WireSpec.
Open Scope Z_scope.
Arguments Nat.ltb : simpl never.
Arguments Nat.leb : simpl never.

Lemma RSIZE_pos : (13 <= RSIZE)%nat. Proof. unfold RSIZE. lia. Qed.
Global Opaque RSIZE.

Definition rinv (r : slr) : Prop :=
  let b := r_buf r in
  (s_arr b < length (r_store r))%nat /\
  (s_off b + s_cap b = length (arr_of (r_store r) (s_arr b)))%nat /\
  (s_len b <= s_cap b)%nat.
Definition buffered (r : slr) : list Z := slice_bytes (r_store r) (r_buf r).

(** a slice that no later read can touch *)
Definition frozen (r : slr) (x : slice) : Prop :=
  (s_arr x < length (r_store r))%nat /\
  (s_off x + s_len x <= length (arr_of (r_store r) (s_arr x)))%nat /\
  (s_arr x = s_arr (r_buf r) -> (s_off x + s_len x <= s_off (r_buf r))%nat).
Definition frame (r r' : slr) : Prop :=
  forall x, frozen r x -> frozen r' x /\ slice_bytes (r_store r') x = slice_bytes (r_store r) x.

Lemma frame_refl r : frame r r. Proof. intros x; auto. Qed.
Lemma frame_trans a b c : frame a b -> frame b c -> frame a c.
Proof.
  intros F G x H. destruct (F x H) as [F1 F2]. destruct (G x F1) as [G1 G2].
  split; auto. congruence.
Qed.

Lemma rinv_init s : rinv (r_init s). Proof. unfold rinv; simpl; lia. Qed.
Lemma buffered_init s : buffered (r_init s) = []. Proof. reflexivity. Qed.

Lemma set_arr_length st a v : length (set_arr st a v) = length st.
Proof. revert a; induction st; intros [|a']; simpl; auto. Qed.
Lemma arr_set_same st a v : (a < length st)%nat -> arr_of (set_arr st a v) a = v.
Proof. unfold arr_of. revert a; induction st; intros [|a'] H; simpl in *; try lia; auto. apply IHst; lia. Qed.
Lemma arr_set_other st a v b : a <> b -> arr_of (set_arr st a v) b = arr_of st b.
Proof. unfold arr_of. revert a b; induction st; intros [|a'] [|b'] H; simpl in *; try lia; auto. Qed.
Lemma arr_app1 st x a : (a < length st)%nat -> arr_of (st ++ x) a = arr_of st a.
Proof. intros. unfold arr_of. apply app_nth1; auto. Qed.
Lemma arr_app2 st x : arr_of (st ++ [x]) (length st) = x.
Proof. intros. unfold arr_of. rewrite app_nth2, Nat.sub_diag by lia. auto. Qed.

Lemma overwrite_nil {A} (a : list A) k : overwrite a k [] = a.
Proof. unfold overwrite. simpl. rewrite Nat.add_0_r, firstn_skipn. auto. Qed.

Lemma firstn_overwrite' {A} (a : list A) k d m : (k <= length a)%nat -> m = (k + length d)%nat ->
  firstn m (overwrite a k d) = firstn k a ++ d.
Proof. intros. subst. apply firstn_overwrite; auto. Qed.

Lemma fill_spec script : forall a off cap l n,
  (off + cap = length a)%nat -> (l <= cap)%nat -> (n <= cap)%nat ->
  let '(a', l', err, script') := sl_fill script a off cap l n in
  length a' = length a /\ (l <= l' <= cap)%nat /\
  exists d, firstn (off + l') a' = firstn (off + l) a ++ d /\ length d = (l' - l)%nat /\
    ((l' < n)%nat -> err <> None) /\
    (forall s, carries script s -> exists s', s = d ++ s' /\ carries script' s' /\
        ((l' < n)%nat -> err = Some EEOF /\ s' = [])).
Proof.
  induction script as [|c cs IH]; intros a off cap l n HA HL HN; cbn [sl_fill].
  - destruct (l <? n)%nat eqn:E.
    + split; auto. split; [lia|]. exists []. rewrite app_nil_r. simpl.
      repeat split; auto; try lia; try congruence.
      intros s C. inversion C; subst. exists []. repeat split; auto. 
    + apply Nat.ltb_ge in E. split; auto. split; [lia|]. exists []. rewrite app_nil_r. simpl.
      repeat split; auto; try lia.
      intros s C. exists s. repeat split; auto; lia.
  - destruct (l <? n)%nat eqn:E.
    2:{ apply Nat.ltb_ge in E. split; auto. split; [lia|]. exists []. rewrite app_nil_r. simpl.
      repeat split; auto; try lia.
      intros s C. exists s. repeat split; auto; lia. }
    apply Nat.ltb_lt in E.
    destruct (length (c_data c) <=? cap - l)%nat eqn:E2.
    + apply Nat.leb_le in E2.
      destruct (c_err c) as [e|] eqn:EE.
      * split. rewrite overwrite_length; lia. split; [lia|].
        exists (c_data c). split. apply firstn_overwrite'; lia. split; [lia|].
        split; [congruence|].
        intros s C. inversion C; subst; simpl in *; try congruence.
        exists []. rewrite app_nil_r. repeat split; auto. constructor.
      * specialize (IH (overwrite a (off + l) (c_data c)) off cap (l + length (c_data c))%nat n).
        rewrite overwrite_length in IH by lia.
        specialize (IH HA ltac:(lia) HN).
        destruct (sl_fill cs _ off cap _ n) as [[[a' l'] err] script'].
        destruct IH as (L' & B' & d & F' & D' & N' & C').
        split; auto. split; [lia|].
        exists (c_data c ++ d). split.
        { rewrite F'. rewrite firstn_overwrite' by lia. rewrite app_assoc; auto. }
        split. rewrite app_length. lia. split; auto.
        intros s C. inversion C; subst; simpl in *; try congruence.
        match goal with X : carries cs _ |- _ => destruct (C' _ X) as (s' & -> & C2 & C3) end.
        exists s'. rewrite app_assoc. auto.
    + apply Nat.leb_gt in E2.
      assert (LF: length (firstn (cap - l) (c_data c)) = (cap - l)%nat).
      { rewrite firstn_length. lia. }
      split. rewrite overwrite_length; lia. split; [lia|].
      exists (firstn (cap - l) (c_data c)).
      split. apply firstn_overwrite'; lia. split; [lia|]. split; [lia|].
      intros s C. inversion C; subst; simpl in *.
      * exists (skipn (cap - l) s). rewrite firstn_skipn. split; auto. split. constructor. lia.
      * exists (skipn (cap - l) d ++ s0). rewrite app_assoc, firstn_skipn.
        split; auto. split. constructor; auto. lia.
Qed.

Lemma skipn_firstn_window {A} (a : list A) o k : firstn k (skipn o a) = skipn o (firstn (o + k) a).
Proof.
  revert a; induction o; intros; simpl; auto. destruct a; simpl; auto.
  rewrite firstn_nil; auto.
Qed.

Lemma skipn_skipn {A} x y (l : list A) : skipn x (skipn y l) = skipn (x + y) l.
Proof.
  revert l; induction y; intros; simpl. rewrite Nat.add_0_r; auto.
  rewrite Nat.add_succ_r. destruct l; simpl. apply skipn_nil. auto.
Qed.

Lemma window_eq {A} (a a' : list A) o k m : firstn m a' = firstn m a -> (o + k <= m)%nat ->
  firstn k (skipn o a') = firstn k (skipn o a).
Proof.
  intros H L. rewrite !skipn_firstn_window. f_equal.
  assert (forall b : list A, firstn (o+k) b = firstn (o+k) (firstn m b)).
  { intros. rewrite firstn_firstn, Nat.min_l by lia. auto. }
  rewrite (H0 a'), (H0 a), H; auto.
Qed.

Lemma buffered_length r : rinv r -> length (buffered r) = s_len (r_buf r).
Proof.
  intros (A & B & C). unfold buffered, slice_bytes. rewrite firstn_length, skipn_length. lia.
Qed.

Lemma grow_spec r n : rinv r -> let '(st, b) := sl_grow r n in
  rinv (mkR st b []) /\ slice_bytes st b = buffered r /\ (n <= s_cap b)%nat /\
  s_len b = s_len (r_buf r) /\
  frame r (mkR st b []) /\ frame r (mkR st (r_buf r) []) /\
  (length (r_store r) <= length st)%nat /\
  (s_arr b = s_arr (r_buf r) /\ st = r_store r /\ b = r_buf r \/
   s_arr b = length (r_store r) /\
   (forall k, (k < length (r_store r))%nat -> arr_of st k = arr_of (r_store r) k)).
Proof.
  intros I. pose proof (buffered_length r I) as BL. destruct I as (I1 & I2 & I3). unfold sl_grow.
  destruct (s_cap (r_buf r) <? n)%nat eqn:E.
  - apply Nat.ltb_lt in E.
    set (c := if (RSIZE <? n)%nat then n else RSIZE).
    assert (n <= c)%nat.
    { unfold c. destruct (RSIZE <? n)%nat eqn:E2; [lia|]. apply Nat.ltb_ge in E2; lia. }
    fold (buffered r).
    split. { unfold rinv; simpl. rewrite app_length, arr_app2. simpl.
             rewrite app_length, repeat_length, BL. lia. }
    split. { unfold slice_bytes; simpl. rewrite arr_app2. 
             rewrite firstn_app, BL, Nat.sub_diag, firstn_all2 by lia. simpl. apply app_nil_r. }
    split; [simpl; lia|]. split; [reflexivity|].
    split. { intros x (X1 & X2 & X3). unfold frozen, slice_bytes; simpl.
             rewrite app_length, arr_app1 by auto. repeat split; auto; simpl; try lia. }
    split. { intros x (X1 & X2 & X3). unfold frozen, slice_bytes; simpl.
             rewrite app_length, arr_app1 by auto. repeat split; auto; simpl; try lia. }
    split. rewrite app_length; lia.
    right. split; auto. intros. apply arr_app1; auto.
  - apply Nat.ltb_ge in E. split. unfold rinv; simpl; auto.
    repeat split; auto; try lia; try apply H.
Qed.

(** Outcome of Read(n) on a transport that carries [s]. *)
Lemma Read_spec r n : rinv r ->
  match sl_Read r n with
  | ROk r' x =>
      rinv r' /\ frozen r' x /\ frame r r' /\ s_len x = n /\
      forall s, carries (r_script r) s -> exists s', carries (r_script r') s' /\
        buffered r ++ s = slice_bytes (r_store r') x ++ buffered r' ++ s'
  | RErr r' e =>
      rinv r' /\ frame r r' /\
      forall s, carries (r_script r) s -> (length (buffered r ++ s) < n)%nat /\ s = [] /\
        e = (if (0 <? length (buffered r))%nat then EUnexpectedEOF else EEOF)
  | RPanic => forall s, carries (r_script r) s -> (length (buffered r ++ s) < n)%nat /\ s <> []
  end.
Proof.
  intros I. pose proof (buffered_length r I) as BL.
  pose proof (grow_spec r n I) as G.
  unfold sl_Read. destruct (n <? s_len (r_buf r))%nat eqn:E.
  { apply Nat.ltb_lt in E. clear G. destruct I as (I1 & I2 & I3).
    split. { unfold rinv; simpl. lia. }
    split. { unfold frozen; simpl. lia. }
    split. { intros x (X1 & X2 & X3). split; auto. unfold frozen; simpl. repeat split; auto. lia. }
    split. reflexivity.
    intros s C. exists s. split; auto.
    unfold buffered, slice_bytes; simpl. rewrite app_assoc. f_equal.
    rewrite (Nat.add_comm _ n), <- skipn_skipn.
    set (z := skipn (s_off (r_buf r)) _).
    rewrite <- (firstn_skipn n z) at 1. rewrite firstn_app, firstn_length.
    assert (length z = length (arr_of (r_store r) (s_arr (r_buf r))) - s_off (r_buf r))%nat by apply skipn_length.
    rewrite Nat.min_l by lia. f_equal. rewrite firstn_firstn. f_equal. lia. }
  apply Nat.ltb_ge in E. destruct (sl_grow r n) as [st b].
  destruct G as (GI & GB & GN & GL & GF & GF2 & GS & GA).
  destruct GI as (J1 & J2 & J3). simpl in J1, J2, J3.
  pose proof (fill_spec (r_script r) (arr_of st (s_arr b)) (s_off b) (s_cap b) (s_len b) n J2 J3 GN) as F.
  destruct (sl_fill _ _ _ _ _ _) as [[[a' l'] err] script'].
  destruct F as (FA & FL & d & FD & FDl & FN & FC).
  (* windows of the new array below off+len are unchanged *)
  assert (W : firstn (s_off b + s_len b) a' = firstn (s_off b + s_len b) (arr_of st (s_arr b))).
  { transitivity (firstn (s_off b + s_len b) (firstn (s_off b + l') a')).
    rewrite firstn_firstn, Nat.min_l by lia; auto.
    rewrite FD. rewrite firstn_app, firstn_length, Nat.min_l by lia.
    rewrite Nat.sub_diag, firstn_firstn, Nat.min_id. simpl. apply app_nil_r. }
  assert (WB : firstn l' (skipn (s_off b) a') = buffered r ++ d).
  { rewrite skipn_firstn_window, FD, skipn_app, firstn_length, Nat.min_l by lia.
    replace (s_off b - (s_off b + s_len b))%nat with 0%nat by lia. simpl. f_equal.
    rewrite <- GB. unfold slice_bytes. rewrite skipn_firstn_window. auto. }
  assert (SF : forall b', s_arr b' = s_arr b -> (s_off b <= s_off b')%nat ->
     frame (mkR st b []) (mkR (set_arr st (s_arr b) a') b' script')).
  { intros b' A1 A2 x (X1 & X2 & X3). simpl in X1, X2, X3.
    unfold frozen, slice_bytes; simpl. rewrite set_arr_length.
    destruct (Nat.eq_dec (s_arr x) (s_arr b)) as [EQ|NE].
    - rewrite EQ in *. rewrite arr_set_same by auto. specialize (X3 eq_refl).
      split. repeat split; auto; lia.
      apply (window_eq _ _ _ _ (s_off b + s_len b)); auto; lia.
    - rewrite arr_set_other by auto. repeat split; auto. congruence. }
  assert (SFold : frame r (mkR (set_arr st (s_arr b) a') (r_buf r) script')).
  { destruct GA as [(A1 & A2 & A3)|(A1 & A2)].
    - subst b st. apply (SF (r_buf r)); auto.
    - intros x (X1 & X2 & X3). unfold frozen, slice_bytes; simpl.
      rewrite set_arr_length. rewrite arr_set_other by lia.
      rewrite A2 by auto. repeat split; auto. lia. }
  assert (IOld : rinv (mkR (set_arr st (s_arr b) a') (r_buf r) script')).
  { destruct I as (I1 & I2 & I3). unfold rinv; simpl. rewrite set_arr_length.
    destruct GA as [(A1 & A2 & A3)|(A1 & A2)].
    - subst b st. rewrite arr_set_same by auto. rewrite FA. auto.
    - rewrite arr_set_other by lia. rewrite A2 by auto. repeat split; auto. lia. }
  destruct (n <=? l')%nat eqn:EN.
  { apply Nat.leb_le in EN.
    split. { unfold rinv; simpl. rewrite set_arr_length, arr_set_same by auto. lia. }
    split. { unfold frozen; simpl. rewrite set_arr_length, arr_set_same by auto. lia. }
    split. { apply (frame_trans _ (mkR st b [])); auto. apply SF; simpl; auto; lia. }
    split. reflexivity.
    intros s C. destruct (FC s C) as (s' & -> & C' & _). exists s'. split; auto.
    unfold buffered at 2, slice_bytes; simpl. rewrite arr_set_same by auto.
    rewrite !app_assoc. f_equal. rewrite <- WB.
    rewrite (Nat.add_comm _ n), <- skipn_skipn.
    set (z := skipn (s_off b) a'). rewrite <- (firstn_skipn n z) at 1.
    assert (length z = length a' - s_off b)%nat by apply skipn_length.
    rewrite firstn_app, firstn_length, Nat.min_l by lia. f_equal.
    rewrite firstn_firstn. f_equal. lia. }
  apply Nat.leb_gt in EN. specialize (FN EN).
  assert (CC : forall s, carries (r_script r) s -> (length (buffered r ++ s) < n)%nat /\
              err = Some EEOF /\ s = d).
  { intros s C. destruct (FC s C) as (s' & -> & C' & X). destruct (X EN) as [-> ->].
    rewrite app_nil_r. rewrite app_length. split; auto. lia. }
  destruct err as [e|]; [|congruence].
  destruct e.
  - destruct (0 <? l')%nat eqn:E0.
    + apply Nat.ltb_lt in E0. destruct (s_len b <? l')%nat eqn:E1.
      * apply Nat.ltb_lt in E1. intros s C. destruct (CC s C) as (X & _ & ->). split; auto.
        intros ->. simpl in FDl. lia.
      * apply Nat.ltb_ge in E1. assert (l' = s_len b) by lia. subst l'.
        assert (d = []) by (destruct d; simpl in *; auto; lia). subst d.
        split. { unfold rinv; simpl. rewrite set_arr_length, arr_set_same by auto. lia. }
        split. { apply (frame_trans _ (mkR st b [])); auto. apply SF; simpl; auto; lia. }
        intros s C. destruct (CC s C) as (X & _ & ->). split; auto. split; auto.
        rewrite BL, <- GL. apply Nat.ltb_lt in E0. rewrite E0. auto.
    + apply Nat.ltb_ge in E0. split; auto. split; auto.
      intros s C. destruct (CC s C) as (X & _ & ->). split; auto.
      split. destruct d; auto. simpl in FDl. lia.
      rewrite BL, <- GL. replace (s_len b) with 0%nat by lia. reflexivity.
  - split; auto. split; auto. intros s C. destruct (CC s C) as (_ & X & _). congruence.
  - split; auto. split; auto. intros s C. destruct (CC s C) as (_ & X & _). congruence.
  - split; auto. split; auto. intros s C. destruct (CC s C) as (_ & X & _). congruence.
Qed.

Ltac spl := repeat match goal with |- _ /\ _ => split end; auto.

(** the bytes still to be delivered by [r] are exactly [S] *)
Definition strm (r : slr) (S : list Z) : Prop :=
  exists s, carries (r_script r) s /\ S = buffered r ++ s.

Lemma strm_init script S : carries script S -> strm (r_init script) S.
Proof. intros. exists S. auto. Qed.

Lemma Read_full r S n : rinv r -> strm r S -> (n <= length S)%nat ->
  exists r' x, sl_Read r n = ROk r' x /\ rinv r' /\ frozen r' x /\ frame r r' /\
    slice_bytes (r_store r') x = firstn n S /\ strm r' (skipn n S).
Proof.
  intros I (s & C & ->) L. pose proof (Read_spec r n I) as R.
  destruct (sl_Read r n) as [r' x|r' e|].
  - destruct R as (I' & Fz & Fr & Ln & R). destruct (R s C) as (s' & C' & E).
    exists r', x. split; [auto|]. split; [auto|]. split; [auto|]. split; [auto|]. split.
    + rewrite E. rewrite firstn_app. 
      assert (length (slice_bytes (r_store r') x) = n).
      { unfold slice_bytes. destruct Fz as (Z1 & Z2 & Z3). rewrite firstn_length, skipn_length. lia. }
      rewrite H, Nat.sub_diag. simpl. rewrite app_nil_r, firstn_all2; auto. lia.
    + exists s'. split; auto. rewrite E. rewrite skipn_app.
      assert (length (slice_bytes (r_store r') x) = n).
      { unfold slice_bytes. destruct Fz as (Z1 & Z2 & Z3). rewrite firstn_length, skipn_length. lia. }
      rewrite H, Nat.sub_diag, skipn_all2 by lia. auto.
  - destruct R as (_ & _ & R). destruct (R s C). lia.
  - destruct (R s C). lia.
Qed.

Lemma Read_short r S n : rinv r -> strm r S -> (length S < n)%nat ->
  (S = [] /\ exists r', sl_Read r n = RErr r' EEOF) \/
  (S <> [] /\ ((exists r', sl_Read r n = RErr r' EUnexpectedEOF) \/ sl_Read r n = RPanic)).
Proof.
  intros I (s & C & ->) L. pose proof (Read_spec r n I) as R.
  destruct (sl_Read r n) as [r' x|r' e|].
  - destruct R as (I' & Fz & Fr & Ln & R). destruct (R s C) as (s' & C' & E).
    exfalso. rewrite E in L. rewrite app_length in L.
    assert (length (slice_bytes (r_store r') x) = n).
    { unfold slice_bytes. destruct Fz as (Z1 & Z2 & Z3). rewrite firstn_length, skipn_length. lia. }
    lia.
  - destruct R as (_ & _ & R). destruct (R s C) as (_ & -> & ->). rewrite app_nil_r.
    destruct (buffered r) eqn:B.
    + left. split; auto. eauto.
    + right. split. discriminate. left. eauto.
  - right. destruct (R s C) as (_ & N). split; auto.
    intros E. apply app_eq_nil in E. destruct E; auto.
Qed.

Lemma Read_frame r n : rinv r ->
  match sl_Read r n with
  | ROk r' x => rinv r' /\ frozen r' x /\ frame r r'
  | RErr r' _ => rinv r' /\ frame r r'
  | RPanic => True
  end.
Proof.
  intros I. pose proof (Read_spec r n I) as R.
  destruct (sl_Read r n) as [r' x|r' e|]; intuition.
Qed.

Lemma ReadByte_frame r : rinv r ->
  match sl_ReadByte r with
  | ROk r' x => rinv r' /\ frame r r'
  | RErr r' _ => rinv r' /\ frame r r'
  | RPanic => True
  end.
Proof.
  intros (I1 & I2 & I3). unfold sl_ReadByte.
  destruct (0 <? s_len (r_buf r))%nat eqn:E.
  - apply Nat.ltb_lt in E. split. unfold rinv; simpl; lia.
    intros x (X1 & X2 & X3). split; auto. unfold frozen; simpl. spl. lia.
  - split. unfold rinv; auto. apply frame_refl.
Qed.

Lemma ReadByte_full r S : rinv r -> strm r S -> (0 < length (buffered r))%nat ->
  exists r', sl_ReadByte r = ROk r' (hd 0 S) /\ rinv r' /\ strm r' (tl S).
Proof.
  intros I (s & C & ->) L. pose proof I as I0. pose proof (buffered_length r I) as BL.
  destruct I as (I1 & I2 & I3).
  unfold sl_ReadByte. rewrite BL in L. apply Nat.ltb_lt in L. rewrite L. apply Nat.ltb_lt in L.
  eexists. split. fold (buffered r). destruct (buffered r); simpl in *; [lia|]. reflexivity.
  split. unfold rinv; simpl; lia.
  exists s. split; auto. unfold buffered, slice_bytes; simpl.
  unfold buffered, slice_bytes in BL.
  rewrite (Nat.add_comm _ 1), <- skipn_skipn.
  set (z := skipn (s_off (r_buf r)) _) in *. destruct z; simpl in *.
  rewrite firstn_nil in BL. simpl in BL. lia.
  destruct (s_len (r_buf r)) eqn:EL; simpl; [lia|]. rewrite Nat.sub_0_r. auto.
Qed.

(* ---------------------------------------------------------------------- *)
(** Frame parsing *)

Lemma le32_dec x : u32_ok x -> le_dec (le32 x) = x.
Proof.
  intros H. replace (le32 x) with (le_enc 4 x).
  - apply le_dec_enc. unfold u32_ok in H. simpl. lia.
  - unfold le32. cbn [le_enc]. rewrite !Z.div_div by lia. reflexivity.
Qed.
Lemma le32_length x : length (le32 x) = 4%nat. Proof. reflexivity. Qed.
Lemma header_length m l i : length (header m l i) = 12%nat. Proof. reflexivity. Qed.

Lemma header_u32_0 m l i : u32_ok m -> u32_at (header m l i) 0 = m.
Proof. intros. unfold u32_at, header. cbn [skipn]. rewrite firstn_app. simpl firstn. apply le32_dec; auto. Qed.
Lemma header_u32_4 m l i : u32_ok l -> u32_at (header m l i) 4 = l.
Proof. intros. unfold u32_at, header. change (skipn 4 _) with (le32 l ++ le32 i).
  change (firstn 4 _) with (le32 l). apply le32_dec; auto. Qed.
Lemma header_u32_8 m l i : u32_ok i -> u32_at (header m l i) 8 = i.
Proof. intros. unfold u32_at, header. change (skipn 8 _) with (le32 i).
  change (firstn 4 _) with (le32 i). apply le32_dec; auto. Qed.

Lemma firstn_app_exact {A} (a b : list A) n : length a = n -> firstn n (a ++ b) = a.
Proof. intros <-. rewrite firstn_app, Nat.sub_diag, firstn_all. simpl. apply app_nil_r. Qed.
Lemma skipn_app_exact {A} (a b : list A) n : length a = n -> skipn n (a ++ b) = b.
Proof. intros <-. rewrite skipn_app, Nat.sub_diag, skipn_all. auto. Qed.

Lemma zlen_to_nat {A} (l : list A) : Z.to_nat (zlen l) = length l.
Proof. unfold zlen. lia. Qed.

(** read exactly the prefix [a] *)
Lemma Read_prefix r a T : rinv r -> strm r (a ++ T) ->
  exists r' x, sl_Read r (length a) = ROk r' x /\ rinv r' /\ frozen r' x /\ frame r r' /\
    slice_bytes (r_store r') x = a /\ strm r' T.
Proof.
  intros I S. destruct (Read_full r (a ++ T) (length a) I S) as (r' & x & R).
  rewrite app_length; lia. rewrite firstn_app_exact, skipn_app_exact in R by auto. eauto.
Qed.

Lemma hr_request_ok r q T : rinv r -> request_ok q -> strm r (request_frame q ++ T) ->
  exists r' x, hr_request r = ROk r' (mkRq (q_msg q) (q_id q) x) /\ rinv r' /\ frozen r' x /\
     slice_bytes (r_store r') x = q_body q /\ strm r' T.
Proof.
  intros I (K1 & K2 & K3) S. unfold request_frame in S. rewrite <- app_assoc in S.
  destruct (Read_prefix r _ _ I S) as (r1 & h & E1 & I1 & Z1 & F1 & B1 & S1).
  rewrite header_length in E1.
  destruct (Read_prefix r1 _ _ I1 S1) as (r2 & x & E2 & I2 & Z2 & F2 & B2 & S2).
  exists r2, x. unfold hr_request. rewrite E1. cbn [r_bind]. rewrite B1.
  rewrite header_u32_4, zlen_to_nat, E2 by auto. cbn [r_bind].
  rewrite header_u32_0, header_u32_8 by auto. auto.
Qed.

Lemma read_requests_ok qs : forall fuel r T, rinv r -> Forall request_ok qs ->
  strm r (concat (map request_frame qs) ++ T) -> (length qs <= fuel)%nat ->
  exists r', rinv r' /\ strm r' T /\
    read_requests fuel r =
      (let '(l, e) := read_requests (fuel - length qs) r' in (qs ++ l, e)).
Proof.
  induction qs as [|q qs IH]; intros fuel r T I K S L.
  - exists r. simpl in *. rewrite Nat.sub_0_r. spl.
    destruct (read_requests fuel r); auto.
  - inversion K; subst. destruct fuel as [|k]; [simpl in L; lia|].
    cbn [map concat] in S. rewrite <- app_assoc in S.
    destruct (hr_request_ok r q _ I H1 S) as (r1 & x & E & I1 & Z1 & B1 & S1).
    destruct (IH k r1 T I1 H2 S1) as (r' & I' & S' & E'). simpl in L; lia.
    exists r'. spl. cbn [read_requests length Nat.sub]. rewrite E, E'.
    destruct (read_requests (k - length qs) r'). simpl. rewrite B1. destruct q; auto.
Qed.

Lemma read_requests_eof fuel r : rinv r -> strm r [] -> (0 < fuel)%nat ->
  read_requests fuel r = ([], EndErr EEOF).
Proof.
  intros I S L. destruct fuel; [lia|]. simpl. unfold hr_request.
  destruct (Read_short r [] 12 I S) as [(_ & r' & ->)|(X & _)]; simpl; auto; try lia. congruence.
Qed.

(** an incomplete frame never yields a request *)
Lemma read_requests_cut fuel r q p t : rinv r -> request_ok q -> strm r p ->
  request_frame q = p ++ t -> t <> [] -> (0 < fuel)%nat ->
  exists e, read_requests fuel r = ([], e) /\ e <> EndFuel /\
    (p = [] -> e = EndErr EEOF).
Proof.
  intros I (K1 & K2 & K3) S E N L. destruct fuel; [lia|]. simpl. unfold hr_request.
  destruct (le_lt_dec 12 (length p)) as [G|G].
  - destruct (Read_full r p 12 I S G) as (r1 & x & E1 & I1 & Z1 & F1 & B1 & S1).
    rewrite E1. cbn [r_bind]. rewrite B1.
    assert (H : firstn 12 p = header (q_msg q) (zlen (q_body q)) (q_id q)).
    { apply (f_equal (firstn 12)) in E. rewrite firstn_app in E.
      replace (12 - length p)%nat with 0%nat in E by lia. simpl (firstn 0 _) in E.
      rewrite app_nil_r in E. rewrite <- E. reflexivity. }
    rewrite H, header_u32_4, zlen_to_nat by auto.
    assert (LT : (length (skipn 12 p) < length (q_body q))%nat).
    { apply (f_equal (@length _)) in E. unfold request_frame in E. rewrite !app_length, header_length in E.
      rewrite skipn_length. destruct t; [congruence|]. simpl in E. lia. }
    destruct (Read_short r1 _ _ I1 S1 LT) as [(_ & r' & ->)|(X & [(r' & ->)| ->])]; simpl;
     (eexists; split; [reflexivity|split; [discriminate|intros ->; simpl in G; lia]]).
  - destruct (Read_short r p 12 I S G) as [(-> & r' & ->)|(X & [(r' & ->)| ->])]; simpl;
     (eexists; split; [reflexivity|split; [discriminate|intros; congruence]]).
Qed.

(** responses *)
Lemma hr_response_ok rc r p T : rc <> RC1 \/ p_msg p = PING -> rinv r -> response_ok rc p ->
  strm r (response_frame rc p ++ T) ->
  exists r' x, hr_response rc r =
      ROk r' (mkRs (p_msg p) (p_id p)
                   (if p_msg p =? PING then 0 else match rc with RC0 => 0 | _ => p_code p end) x) /\
     rinv r' /\ frozen r' x /\ slice_bytes (r_store r') x = p_body p /\ strm r' T.
Proof.
  intros R1 I (K1 & K2 & K3 & K4) S. unfold response_frame in S.
  rewrite <- !app_assoc in S.
  destruct (Read_prefix r _ _ I S) as (r1 & h & E1 & I1 & Z1 & F1 & B1 & S1).
  rewrite header_length in E1.
  unfold hr_response. rewrite E1. cbn [r_bind]. rewrite B1.
  rewrite header_u32_4, header_u32_0, header_u32_8 by auto.
  unfold code_bytes in *. destruct (p_msg p =? PING) eqn:EP.
  - simpl app in S1. destruct (Read_prefix r1 _ _ I1 S1) as (r2 & x & E2 & I2 & Z2 & F2 & B2 & S2).
    change (zlen (@nil Z) + zlen (p_body p)) with (zlen (p_body p)).
    rewrite zlen_to_nat, E2. cbn [r_bind]. eauto 10.
  - destruct rc; [| |].
    + replace (zlen (le32 (p_code p)) + zlen (p_body p)) with (4 + zlen (p_body p)) by reflexivity.
      destruct (4 + zlen (p_body p) <? 4) eqn:E4.
      { apply Z.ltb_lt in E4. pose proof (zlen_nonneg (p_body p)). lia. }
      destruct (Read_prefix r1 _ _ I1 S1) as (r2 & c & E2 & I2 & Z2 & F2 & B2 & S2).
      rewrite le32_length in E2. rewrite E2. cbn [r_bind]. rewrite B2.
      replace (4 + zlen (p_body p) - 4) with (zlen (p_body p)) by lia. rewrite zlen_to_nat.
      destruct (Read_prefix r2 _ _ I2 S2) as (r3 & x & E3 & I3 & Z3 & F3 & B3 & S3).
      rewrite E3. cbn [r_bind]. exists r3, x. spl.
      unfold u32_at. simpl skipn. change (firstn 4 (le32 (p_code p))) with (le32 (p_code p)).
      rewrite le32_dec; auto.
    + apply Z.eqb_neq in EP. destruct R1; congruence.
    + simpl app in S1. destruct (Read_prefix r1 _ _ I1 S1) as (r2 & x & E2 & I2 & Z2 & F2 & B2 & S2).
      change (zlen (@nil Z) + zlen (p_body p)) with (zlen (p_body p)).
      rewrite zlen_to_nat, E2. cbn [r_bind]. unfold RC_OK. eauto 10.
Qed.

(** what the reader reports for a written response *)
Definition seen (rc : rctype) (p : response) : response :=
  mkRes (p_msg p) (p_id p)
    (if p_msg p =? PING then 0 else match rc with RC0 => 0 | _ => p_code p end) (p_body p).

Lemma read_responses_ok rc ps : rc <> RC1 -> forall fuel r T, rinv r -> Forall (response_ok rc) ps ->
  strm r (concat (map (response_frame rc) ps) ++ T) -> (length ps <= fuel)%nat ->
  exists r', rinv r' /\ strm r' T /\
    read_responses rc fuel r =
      (let '(l, e) := read_responses rc (fuel - length ps) r' in (map (seen rc) ps ++ l, e)).
Proof.
  intros R1. induction ps as [|p ps IH]; intros fuel r T I K S L.
  - exists r. simpl in *. rewrite Nat.sub_0_r. spl.
    destruct (read_responses rc fuel r); auto.
  - inversion K; subst. destruct fuel as [|k]; [simpl in L; lia|].
    cbn [map concat] in S. rewrite <- app_assoc in S.
    destruct (hr_response_ok rc r p _ (or_introl R1) I H1 S) as (r1 & x & E & I1 & Z1 & B1 & S1).
    destruct (IH k r1 T I1 H2 S1) as (r' & I' & S' & E'). simpl in L; lia.
    exists r'. spl. cbn [read_responses length Nat.sub]. rewrite E, E'.
    destruct (read_responses rc (k - length ps) r'). simpl. unfold seen at 3. rewrite B1. auto.
Qed.

Lemma read_responses_eof rc fuel r : rinv r -> strm r [] -> (0 < fuel)%nat ->
  read_responses rc fuel r = ([], EndErr EEOF).
Proof.
  intros I S L. destruct fuel; [lia|]. simpl. unfold hr_response.
  destruct (Read_short r [] 12 I S) as [(_ & r' & ->)|(X & _)]; simpl; auto; try lia. congruence.
Qed.

(** frames too short for their return code *)
Lemma hr_response_short rc r msg id body T : rinv r -> u32_ok msg -> u32_ok id -> msg <> PING ->
  zlen body < rc_len rc ->
  strm r (header msg (zlen body) id ++ body ++ T) ->
  exists r' x, hr_response rc r = ROk r' (mkRs msg id RC_PROTOCOL_ERROR x) /\
     rinv r' /\ slice_bytes (r_store r') x = body /\ strm r' T.
Proof.
  intros I K1 K2 NP SH S.
  destruct (Read_prefix r _ _ I S) as (r1 & h & E1 & I1 & Z1 & F1 & B1 & S1).
  rewrite header_length in E1. pose proof (zlen_nonneg body).
  unfold hr_response. rewrite E1. cbn [r_bind]. rewrite B1.
  assert (u32_ok (zlen body)). { unfold u32_ok. destruct rc; simpl in SH; lia. }
  rewrite header_u32_4, header_u32_0, header_u32_8 by auto.
  destruct (msg =? PING) eqn:EP. apply Z.eqb_eq in EP; congruence.
  destruct (Read_prefix r1 _ _ I1 S1) as (r2 & x & E2 & I2 & Z2 & F2 & B2 & S2).
  destruct rc; simpl in SH; try lia; apply Z.ltb_lt in SH; rewrite SH;
    rewrite zlen_to_nat, E2; cbn [r_bind]; eauto 10.
Qed.

(* ---------------------------------------------------------------------- *)
(** Immutability *)

Lemma bind_frame {A B} r (x : rres A) (f : slr -> A -> rres B) :
  match x with ROk r' _ | RErr r' _ => rinv r' /\ frame r r' | RPanic => True end ->
  (forall r' a, rinv r' -> frame r r' ->
     match f r' a with ROk r2 _ | RErr r2 _ => rinv r2 /\ frame r r2 | RPanic => True end) ->
  match r_bind x f with ROk r2 _ | RErr r2 _ => rinv r2 /\ frame r r2 | RPanic => True end.
Proof. intros H G. destruct x; simpl in *; auto. destruct H. apply G; auto. Qed.

Lemma Read_frame' r0 r n : rinv r -> frame r0 r ->
  match sl_Read r n with ROk r' _ | RErr r' _ => rinv r' /\ frame r0 r' | RPanic => True end.
Proof.
  intros I F. pose proof (Read_frame r n I). destruct (sl_Read r n); intuition;
  eapply frame_trans; eauto.
Qed.
Lemma ReadByte_frame' r0 r : rinv r -> frame r0 r ->
  match sl_ReadByte r with ROk r' _ | RErr r' _ => rinv r' /\ frame r0 r' | RPanic => True end.
Proof.
  intros I F. pose proof (ReadByte_frame r I). destruct (sl_ReadByte r); intuition;
  eapply frame_trans; eauto.
Qed.

Lemma hr_request_frame r : rinv r ->
  match hr_request r with ROk r' _ | RErr r' _ => rinv r' /\ frame r r' | RPanic => True end.
Proof.
  intros I. unfold hr_request. apply bind_frame. apply Read_frame'; auto using frame_refl.
  intros. apply bind_frame. apply Read_frame'; auto. auto.
Qed.
Lemma hr_response_frame rc r : rinv r ->
  match hr_response rc r with ROk r' _ | RErr r' _ => rinv r' /\ frame r r' | RPanic => True end.
Proof.
  intros I. unfold hr_response. apply bind_frame. apply Read_frame'; auto using frame_refl.
  intros r1 h I1 F1.
  assert (FIN : forall A (g : slice -> A) r2 n, rinv r2 -> frame r r2 ->
     match r_bind (sl_Read r2 n) (fun r3 b => ROk r3 (g b)) with
     | ROk r' _ | RErr r' _ => rinv r' /\ frame r r' | RPanic => True end).
  { intros. apply bind_frame. apply Read_frame'; auto. auto. }
  destruct (_ =? PING). apply FIN; auto.
  destruct rc; [destruct (_ <? 4)|destruct (_ <? 1)|]; try (apply FIN; auto).
  - apply bind_frame. apply Read_frame'; auto. intros. apply FIN; auto.
  - apply bind_frame. apply ReadByte_frame'; auto. intros. apply FIN; auto.
Qed.
Lemma hr_ping_frame r : rinv r ->
  match hr_ping r with ROk r' _ | RErr r' _ => rinv r' /\ frame r r' | RPanic => True end.
Proof.
  intros I. unfold hr_ping. apply bind_frame. apply Read_frame'; auto using frame_refl.
  intros. destruct (_ && _); auto.
Qed.

Lemma run_rops_frame rc ops : forall r r', rinv r -> run_rops rc r ops = Some r' ->
  rinv r' /\ frame r r'.
Proof.
  induction ops as [|o ops IH]; simpl; intros r r' I E.
  - inversion E; subst. split; auto using frame_refl.
  - assert (X : forall r1, run_rop rc r o = Some r1 -> rinv r1 /\ frame r r1).
    { destruct o; simpl; intros r1 H.
      pose proof (hr_request_frame r I). 2: pose proof (hr_response_frame rc r I). 3: pose proof (hr_ping_frame r I).
      all: match goal with H : res_state ?x = _ |- _ => destruct x; simpl in *; inversion H; subst; auto end. }
    destruct (run_rop rc r o) as [r1|]; [|discriminate].
    destruct (X r1 eq_refl) as [I1 F1]. destruct (IH r1 r' I1 E). split; auto.
    eapply frame_trans; eauto.
Qed.

Lemma hr_request_frozen r r' q : rinv r -> hr_request r = ROk r' q -> rinv r' /\ frozen r' (rq_body q).
Proof.
  intros I E. unfold hr_request in E. pose proof (Read_frame r 12 I).
  destruct (sl_Read r 12) as [r1 h| |]; simpl in E; try discriminate. destruct H as (I1 & _ & _).
  match type of E with context [sl_Read r1 ?n] => pose proof (Read_frame r1 n I1);
    destruct (sl_Read r1 n) as [r2 x| |]; simpl in E; try discriminate end.
  inversion E; subst. simpl. intuition.
Qed.
Lemma hr_response_frozen rc r r' q : rinv r -> hr_response rc r = ROk r' q -> rinv r' /\ frozen r' (rs_body q).
Proof.
  intros I E. unfold hr_response in E. pose proof (Read_frame r 12 I).
  destruct (sl_Read r 12) as [r1 h| |]; simpl in E; try discriminate. destruct H as (I1 & _ & _).
  assert (FIN : forall r2 n (g : slice -> rs), rinv r2 -> (forall b, rs_body (g b) = b) ->
     r_bind (sl_Read r2 n) (fun r3 b => ROk r3 (g b)) = ROk r' q -> rinv r' /\ frozen r' (rs_body q)).
  { intros r2 n g I2 G X. pose proof (Read_frame r2 n I2).
    destruct (sl_Read r2 n); simpl in X; try discriminate. inversion X; subst. rewrite G. intuition. }
  destruct (_ =? PING). eapply FIN; [| |exact E]; auto.
  destruct rc; [destruct (_ <? 4)|destruct (_ <? 1)|]; try (eapply FIN; [| |exact E]; auto; fail).
  - pose proof (Read_frame r1 4 I1). destruct (sl_Read r1 4); simpl in E; try discriminate.
    eapply FIN; [| |exact E]; intuition.
  - pose proof (ReadByte_frame r1 I1). destruct (sl_ReadByte r1); simpl in E; try discriminate.
    eapply FIN; [| |exact E]; intuition.
Qed.

(* ---------------------------------------------------------------------- *)
(** Fragmentation independence *)
Lemma reads_ok ns : forall r S, rinv r -> strm r S ->
  (list_sum ns <= length S)%nat ->
  exists os rest, reads r ns = Some os /\ map (@length Z) os = ns /\ S = concat os ++ rest.
Proof.
  induction ns as [|n ns IH]; intros r S I H L; simpl.
  - exists [], S. auto.
  - simpl in L. destruct (Read_full r S n I H) as (r1 & x & E & I1 & Z1 & F1 & B1 & S1); [lia|].
    rewrite E. destruct (IH r1 _ I1 S1) as (os & rest & E' & M & C). rewrite skipn_length; lia.
    rewrite E'. exists (slice_bytes (r_store r1) x :: os), rest. split; auto. simpl. rewrite M, B1.
    split. rewrite firstn_length, Nat.min_l by lia. auto.
    rewrite <- app_assoc, <- C, firstn_skipn. auto.
Qed.
Lemma reads_fail ns : forall r S, rinv r -> strm r S ->
  (length S < list_sum ns)%nat -> reads r ns = None.
Proof.
  induction ns as [|n ns IH]; intros r S I H L; simpl in *. lia.
  destruct (le_lt_dec n (length S)).
  - destruct (Read_full r S n I H) as (r1 & x & E & I1 & Z1 & F1 & B1 & S1); [lia|].
    rewrite E. rewrite (IH r1 _ I1 S1). auto. rewrite skipn_length. lia.
  - destruct (Read_short r S n I H) as [(_ & r' & ->)|(X & [(r' & ->)| ->])]; auto.
Qed.
