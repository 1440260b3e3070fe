(** Proofs about the Writer's buffer: growth, contents, and slices returned earlier. *)
From Coq Require Import ZArith List Bool Arith Lia.
Import ListNotations.
From Verif Require Import Base PrimModel PrimSpec PrimProofs.
Open Scope Z_scope.

Definition wf (w : writer) : Prop :=
  (s_arr (w_buf w) < length (w_mem w) /\
   s_off (w_buf w) + s_cap (w_buf w) <= length (nth (s_arr (w_buf w)) (w_mem w) []) /\
   s_len (w_buf w) <= s_cap (w_buf w))%nat.
Definition wbytes (w : writer) : list Z := sl_bytes (w_mem w) (w_buf w).
(** [s] is out of reach of further writes *)
Definition away (w : writer) (s : slice) : Prop :=
  (s_arr s < length (w_mem w) /\ (s_arr s <> s_arr (w_buf w) \/ s_off s + s_len s <= s_off (w_buf w)))%nat.

Lemma upd_nth_length {A} (l : list A) n v : length (upd_nth l n v) = length l.
Proof. revert n; induction l; intros [|n]; cbn; congruence. Qed.
Lemma upd_nth_same {A} (l : list A) n v d : (n < length l)%nat -> nth n (upd_nth l n v) d = v.
Proof. revert n; induction l; intros [|n] H; cbn in *; try lia; [reflexivity|apply IHl; lia]. Qed.
Lemma upd_nth_other {A} (l : list A) n m v d : n <> m -> nth m (upd_nth l n v) d = nth m l d.
Proof. revert n m; induction l; intros [|n] [|m] H; cbn; try reflexivity; try easy. apply IHl. congruence. Qed.

(** ceilLog never rounds down *)
Lemma lor_ge a b : 0 <= a -> 0 <= b -> a <= Z.lor a b.
Proof.
  intros A B.
  assert (E : Z.lor a b = a + Z.ldiff b a).
  { rewrite <- (Z.lor_ldiff_and b a) at 1.
    assert (L : Z.land a (Z.ldiff b a) = 0).
    { apply Z.bits_inj'. intros n Hn. rewrite Z.land_spec, Z.ldiff_spec, Z.bits_0.
      destruct (Z.testbit a n), (Z.testbit b n); reflexivity. }
    rewrite Z.add_nocarry_lxor, Z.lxor_lor by exact L.
    apply Z.bits_inj'. intros n Hn. rewrite !Z.lor_spec, Z.ldiff_spec, Z.land_spec.
    destruct (Z.testbit a n), (Z.testbit b n); reflexivity. }
  rewrite E. pose proof (proj2 (Z.ldiff_nonneg b a) (or_introl B)). lia.
Qed.
Lemma lor_shr_ge a s : 0 <= a -> 0 <= Z.lor a (Z.shiftr a s) /\ a <= Z.lor a (Z.shiftr a s).
Proof.
  intro A. assert (0 <= Z.shiftr a s) by (now apply Z.shiftr_nonneg).
  split; [apply Z.lor_nonneg; lia|now apply lor_ge].
Qed.
Lemma ceilLog_ge n : 1 <= n -> n <= ceilLog n.
Proof.
  intro H. unfold ceilLog. destruct (Z.ltb_spec 0 n); [|lia].
  rewrite (Z.shiftr_div_pow2 (n - 1)) by lia. change (2 ^ 2) with 4.
  assert (P0 : 0 <= (n - 1) / 4) by (apply Z.div_pos; lia). set (m := (n - 1) / 4) in *.
  cbv zeta.
  destruct (lor_shr_ge m 3 P0) as [P1 L1]. set (m1 := Z.lor m (Z.shiftr m 3)) in *.
  destruct (lor_shr_ge m1 2 P1) as [P2 L2]. set (m2 := Z.lor m1 (Z.shiftr m1 2)) in *.
  destruct (lor_shr_ge m2 4 P2) as [P3 L3]. set (m3 := Z.lor m2 (Z.shiftr m2 4)) in *.
  destruct (lor_shr_ge m3 8 P3) as [P4 L4]. set (m4 := Z.lor m3 (Z.shiftr m3 8)) in *.
  destruct (lor_shr_ge m4 16 P4) as [P5 L5]. set (m5 := Z.lor m4 (Z.shiftr m4 16)) in *.
  rewrite Z.shiftl_mul_pow2 by lia. change (2 ^ 2) with 4.
  pose proof (Z.div_mod (n - 1) 4 ltac:(lia)). pose proof (Z.mod_pos_bound (n - 1) 4 ltac:(lia)). fold m in H1. lia.
Qed.
Lemma new_cap_ge def l n : (1 <= l + n)%nat -> Z.of_nat (l + n) <= new_cap def l n.
Proof.
  intro H. unfold new_cap. cbv zeta. destruct (Z.leb_spec (Z.of_nat (l + n)) (if def =? 0 then 512 else def)); [lia|].
  apply ceilLog_ge. lia.
Qed.

Lemma sl_bytes_length m s : (s_off s + s_len s <= length (nth (s_arr s) m []))%nat -> length (sl_bytes m s) = s_len s.
Proof. intro H. unfold sl_bytes. rewrite firstn_length, skipn_length. lia. Qed.
Lemma wbytes_length w : wf w -> length (wbytes w) = s_len (w_buf w).
Proof. intros (A & B & C). apply sl_bytes_length. lia. Qed.
Lemma firstn_firstn_le {A} (l : list A) n m : (n <= m)%nat -> firstn n (firstn m l) = firstn n l.
Proof. intro H. rewrite firstn_firstn. now rewrite Nat.min_l. Qed.

Lemma ensure_ok w n : wf w -> exists w', w_ensure w n = Some w' /\ wf w' /\
  s_len (w_buf w') = (s_len (w_buf w) + n)%nat /\
  firstn (s_len (w_buf w)) (wbytes w') = wbytes w /\
  (forall s, away w s -> away w' s /\ sl_bytes (w_mem w') s = sl_bytes (w_mem w) s).
Proof.
  intro W. pose proof W as (A & B & C). unfold w_ensure.
  destruct (Nat.ltb_spec (s_cap (w_buf w) - s_len (w_buf w)) n) as [h|h].
  - pose proof (new_cap_ge (w_def w) (s_len (w_buf w)) n ltac:(lia)) as G.
    set (nc := new_cap (w_def w) (s_len (w_buf w)) n) in *. cbv zeta.
    destruct (Z.ltb_spec nc (Z.of_nat (s_len (w_buf w)))); [lia|]. cbn [w_buf s_cap s_arr s_off w_mem w_def].
    destruct (Nat.ltb_spec (Z.to_nat nc) (s_len (w_buf w) + n)); [lia|].
    eexists; split; [reflexivity|].
    assert (L : length (wbytes w) = s_len (w_buf w)) by now apply wbytes_length.
    fold (wbytes w).
    assert (N : nth (length (w_mem w)) (w_mem w ++ [wbytes w ++ repeat 0 (Z.to_nat nc - s_len (w_buf w))]) [] =
      wbytes w ++ repeat 0 (Z.to_nat nc - s_len (w_buf w))).
    { rewrite app_nth2 by lia. now rewrite Nat.sub_diag. }
    split; [|split; [|split]].
    + unfold wf. cbn [w_buf w_mem s_arr s_off s_len s_cap]. rewrite N, !app_length, repeat_length, L. cbn. lia.
    + reflexivity.
    + unfold wbytes at 1. unfold sl_bytes. cbn [w_buf w_mem s_arr s_off s_len s_cap]. rewrite N. cbn [skipn].
      rewrite firstn_firstn_le by lia. now apply firstn_app_len.
    + intros s [S1 S2]. unfold away, sl_bytes. cbn [w_buf w_mem s_arr s_off s_len s_cap]. rewrite app_length, app_nth1 by exact S1.
      cbn. split; [split; lia|reflexivity].
  - destruct (Nat.ltb_spec (s_cap (w_buf w)) (s_len (w_buf w) + n)); [lia|].
    eexists; split; [reflexivity|]. split; [|split; [|split]].
    + unfold wf. cbn [w_buf w_mem s_arr s_off s_len s_cap]. lia.
    + reflexivity.
    + unfold wbytes, sl_bytes. cbn [w_buf w_mem s_arr s_off s_len s_cap]. apply firstn_firstn_le. lia.
    + intros s [S1 S2]. unfold away, sl_bytes. cbn [w_buf w_mem s_arr s_off s_len s_cap]. split; [split; assumption|reflexivity].
Qed.

Lemma skipn_skipn' {A} n m (l : list A) : skipn n (skipn m l) = skipn (m + n) l.
Proof. revert l; induction m; intro l; [reflexivity|]. destruct l; cbn [skipn Nat.add]; [now rewrite skipn_nil|apply IHm]. Qed.
Lemma overwrite_window {A} (a : list A) off len pos b : (pos + length b <= len)%nat -> (off + len <= length a)%nat ->
  firstn len (skipn off (overwrite a (off + pos) b)) = overwrite (firstn len (skipn off a)) pos b.
Proof.
  intros P L. unfold overwrite.
  rewrite skipn_app, firstn_length, Nat.min_l by lia. rewrite skipn_firstn_comm.
  replace (off - (off + pos))%nat with 0%nat by lia. cbn [skipn].
  replace (off + pos - off)%nat with pos by lia.
  rewrite firstn_app, firstn_firstn, firstn_length, skipn_length, (Nat.min_r len pos), (Nat.min_l pos) by lia.
  rewrite firstn_firstn, (Nat.min_l pos len) by lia. f_equal.
  rewrite firstn_app, firstn_all2 by lia. f_equal.
  rewrite skipn_firstn_comm, skipn_skipn'. f_equal; [lia|]. f_equal. lia.
Qed.
Lemma overwrite_below {A} (a : list A) off len o b : (off + len <= o)%nat -> (o <= length a)%nat ->
  firstn len (skipn off (overwrite a o b)) = firstn len (skipn off a).
Proof.
  intros P L. unfold overwrite. rewrite skipn_app, skipn_firstn_comm, firstn_app, firstn_firstn, firstn_length, skipn_length.
  rewrite (Nat.min_l (o - off)) by lia. replace (len - (o - off))%nat with 0%nat by lia. cbn [firstn]. rewrite app_nil_r.
  f_equal. lia.
Qed.

Lemma store_ok w pos b : wf w -> (pos + length b <= s_len (w_buf w))%nat -> exists w', w_store w pos b = Some w' /\ wf w' /\
  s_len (w_buf w') = s_len (w_buf w) /\ wbytes w' = overwrite (wbytes w) pos b /\
  (forall s, away w s -> away w' s /\ sl_bytes (w_mem w') s = sl_bytes (w_mem w) s).
Proof.
  intros W P. pose proof W as (A & B & C). unfold w_store.
  destruct (Nat.ltb_spec (s_len (w_buf w)) (pos + length b)); [lia|].
  eexists; split; [reflexivity|]. unfold wf, wbytes, sl_bytes, away. cbn [w_buf w_mem].
  rewrite !upd_nth_length, !upd_nth_same by exact A. rewrite overwrite_length by lia.
  split; [lia|split; [reflexivity|split]].
  - apply overwrite_window; lia.
  - intros s [S1 S2]. split; [split; assumption|].
    destruct (Nat.eq_dec (s_arr s) (s_arr (w_buf w))) as [e|ne].
    + rewrite e, upd_nth_same by exact A. apply overwrite_below; lia.
    + now rewrite upd_nth_other by congruence.
Qed.

(** stores within [n] bytes of the old end *)
Definition stores_in (n : nat) (st : list (nat * list Z)) : Prop := Forall (fun p => (fst p + length (snd p) <= n)%nat) st.
Fixpoint apply_stores (a : list Z) (st : list (nat * list Z)) : list Z :=
  match st with [] => a | (p, b) :: st => apply_stores (overwrite a p b) st end.
Lemma stores_ok l n : forall st w, wf w -> s_len (w_buf w) = (l + n)%nat -> stores_in n st -> exists w',
  w_stores w l st = Some w' /\ wf w' /\ s_len (w_buf w') = (l + n)%nat /\
  firstn l (wbytes w') = firstn l (wbytes w) /\
  skipn l (wbytes w') = apply_stores (skipn l (wbytes w)) st /\
  (forall s, away w s -> away w' s /\ sl_bytes (w_mem w') s = sl_bytes (w_mem w) s).
Proof.
  induction st as [|[p b] st IH]; intros w W L I; cbn [w_stores apply_stores].
  - exists w. split; [reflexivity|split; [exact W|split; [exact L|split; [reflexivity|split; [reflexivity|]]]]]. intros s H; now split.
  - apply Forall_cons_iff in I. destruct I as [I1 I]. cbn [fst snd] in I1.
    destruct (store_ok w (l + p) b W) as (w1 & E1 & W1 & L1 & B1 & S1); [lia|]. rewrite E1.
    pose proof (wbytes_length w W) as LW.
    destruct (IH w1 W1 ltac:(lia) I) as (w' & E & W' & L' & F & K & S2).
    exists w'. split; [exact E|split; [exact W'|split; [exact L'|split; [|split]]]].
    + rewrite F, B1. apply firstn_overwrite_lo; lia.
    + rewrite K, B1. f_equal. pose proof (overwrite_window (wbytes w) l n p b I1 ltac:(lia)) as Ow.
      rewrite !firstn_all2 in Ow by (rewrite ?skipn_length, ?overwrite_length by lia; lia). exact Ow.
    + intros s H. destruct (S1 s H) as [H1 H2]. destruct (S2 s H1) as [H3 H4]. split; [exact H3|congruence].
Qed.

Lemma sl_stores_in stride wd : forall xs pos n, (forall j, (j < length xs)%nat -> pos + j * stride + wd <= n)%nat ->
  stores_in n (sl_stores stride wd pos xs).
Proof.
  induction xs as [|x xs IH]; intros pos n H; cbn [sl_stores]; [constructor|].
  constructor.
  - cbn [fst snd]. rewrite le_enc_length. specialize (H 0%nat ltac:(cbn; lia)). lia.
  - apply IH. intros j Hj. specialize (H (S j) ltac:(cbn; lia)). lia.
Qed.
Lemma call_stores_in c : stores_in (fst (call_stores c)) (snd (call_stores c)).
Proof.
  destruct c; cbn [call_stores fst snd].
  - constructor; [|constructor]. cbn. rewrite le_enc_length. lia.
  - constructor; [|constructor]. cbn. lia.
  - constructor; [|constructor]. cbn. lia.
  - apply sl_stores_in. intros j Hj. rewrite map_length in Hj. nia.
  - apply sl_stores_in. intros j Hj. lia.
Qed.
Lemma sl_stores_exact wd : forall xs a pos, length a = (pos + length xs * wd)%nat ->
  apply_stores a (sl_stores wd wd pos xs) = firstn pos a ++ flat_map (fun x => le_enc wd x) xs.
Proof.
  induction xs as [|x xs IH]; intros a pos L; cbn [sl_stores apply_stores flat_map].
  - rewrite app_nil_r. symmetry. apply firstn_all2. cbn in L. lia.
  - cbn [length] in L. pose proof (le_enc_length wd x) as E.
    rewrite IH by (rewrite overwrite_length by lia; lia).
    pose proof (firstn_overwrite a pos (le_enc wd x) ltac:(lia)) as F. rewrite E in F. rewrite F.
    now rewrite <- app_assoc.
Qed.
Lemma call_stores_exact c a : call_ok c -> length a = fst (call_stores c) -> apply_stores a (snd (call_stores c)) = appended c.
Proof.
  assert (O : forall b, length a = length b -> overwrite a 0 b = b).
  { intros b H. unfold overwrite. cbn [firstn Nat.add app]. rewrite skipn_all2 by lia. apply app_nil_r. }
  destruct c; cbn [call_ok call_stores fst snd apply_stores appended]; intros K L; try easy.
  - apply O. now rewrite le_enc_length.
  - now apply O.
  - now apply O.
  - rewrite sl_stores_exact by (rewrite map_length; cbn; lia). cbn [firstn app].
    clear. induction xs; [reflexivity|]. cbn [map flat_map]. now rewrite IHxs.
Qed.

Lemma call_gen w c : wf w -> exists w', w_call w c = Some w' /\ wf w' /\
  (exists t, length t = fst (call_stores c) /\ wbytes w' = wbytes w ++ t /\ (call_ok c -> t = appended c)) /\
  (forall s, away w s -> away w' s /\ sl_bytes (w_mem w') s = sl_bytes (w_mem w) s).
Proof.
  intro W. unfold w_call. pose proof (call_stores_in c) as I. pose proof (call_stores_exact c) as X.
  destruct (call_stores c) as [n st]. cbn [fst snd] in I, X |- *.
  destruct (ensure_ok w n W) as (w1 & E1 & W1 & L1 & F1 & S1). rewrite E1.
  destruct (stores_ok (s_len (w_buf w)) n st w1 W1 L1 I) as (w' & E & W' & L' & F & K & S2).
  exists w'. split; [exact E|split; [exact W'|split]].
  - exists (skipn (s_len (w_buf w)) (wbytes w')). split; [|split].
    + rewrite skipn_length, wbytes_length by exact W'. lia.
    + rewrite <- (firstn_skipn (s_len (w_buf w)) (wbytes w')) at 1. f_equal. congruence.
    + intro OK. rewrite K. apply X; [exact OK|]. rewrite skipn_length, wbytes_length by exact W1. lia.
  - intros s H. destruct (S1 s H) as [H1 H2]. destruct (S2 s H1) as [H3 H4]. split; [exact H3|congruence].
Qed.

Lemma Written_ok w : wf w -> wf (fst (w_Written w)) /\ wbytes (fst (w_Written w)) = [] /\
  sl_bytes (w_mem (fst (w_Written w))) (snd (w_Written w)) = wbytes w /\ away (fst (w_Written w)) (snd (w_Written w)) /\
  (forall s, away w s -> away (fst (w_Written w)) s /\ sl_bytes (w_mem (fst (w_Written w))) s = sl_bytes (w_mem w) s).
Proof.
  intros (A & B & C). unfold w_Written, wf, wbytes, sl_bytes, away. cbn [fst snd w_buf w_mem s_arr s_off s_len s_cap].
  split; [lia|split; [reflexivity|split; [reflexivity|split; [lia|]]]]. intros s [S1 S2]. split; [split; [exact S1|]|reflexivity]. lia.
Qed.
Lemma Reset_ok w : wf w -> wf (w_Reset w) /\ wbytes (w_Reset w) = [] /\
  (forall s, away w s -> away (w_Reset w) s /\ sl_bytes (w_mem (w_Reset w)) s = sl_bytes (w_mem w) s).
Proof.
  intros (A & B & C). unfold w_Reset, wf, wbytes, sl_bytes, away. cbn [fst snd w_buf w_mem s_arr s_off s_len s_cap].
  split; [lia|split; [reflexivity|]]. intros s [S1 S2]. split; [split; assumption|reflexivity].
Qed.

(** All operations of a history. *)
Definition op_ok (o : wop) : Prop := match o with OCall c => call_ok c | _ => True end.
Lemma wrun_gen : forall ops w, wf w -> exists w' ss, wrun w ops = Some (w', ss) /\ wf w' /\
  (forall s, away w s -> away w' s /\ sl_bytes (w_mem w') s = sl_bytes (w_mem w) s) /\
  Forall (away w') ss /\
  (Forall op_ok ops -> map (sl_bytes (w_mem w')) ss = expected (wbytes w) ops /\ wbytes w' = pending (wbytes w) ops).
Proof.
  induction ops as [|o ops IH]; intros w W.
  - exists w, []. cbn. split; [reflexivity|split; [exact W|split; [intros s H; now split|split; [constructor|now split]]]].
  - destruct o as [c| | |d]; cbn [wrun expected pending].
    + destruct (call_gen w c W) as (w1 & E1 & W1 & (t & Lt & T1 & T2) & S1). rewrite E1.
      destruct (IH w1 W1) as (w' & ss & E & W' & S2 & F & X). exists w', ss. split; [exact E|split; [exact W'|split; [|split; [exact F|]]]].
      * intros s H. destruct (S1 s H) as [H1 H2]. destruct (S2 s H1) as [H3 H4]. split; [exact H3|congruence].
      * intro O. apply Forall_cons_iff in O. destruct O as [O1 O]. destruct (X O) as [X1 X2].
        rewrite X1, X2, T1, (T2 O1). now split.
    + pose proof (Written_ok w W) as K. destruct (w_Written w) as [w1 s1]. cbn [fst snd] in K.
      destruct K as (W1 & B1 & V1 & A1 & S1).
      destruct (IH w1 W1) as (w' & ss & E & W' & S2 & F & X). rewrite E. exists w', (s1 :: ss).
      destruct (S2 s1 A1) as [A2 V2].
      split; [reflexivity|split; [exact W'|split; [|split; [now constructor|]]]].
      * intros s H. destruct (S1 s H) as [H1 H2]. destruct (S2 s H1) as [H3 H4]. split; [exact H3|congruence].
      * intro O. apply Forall_cons_iff in O. destruct O as [O1 O]. destruct (X O) as [X1 X2].
        cbn [map]. rewrite X1, X2, V2, V1, B1. now split.
    + destruct (Reset_ok w W) as (W1 & B1 & S1).
      destruct (IH _ W1) as (w' & ss & E & W' & S2 & F & X). exists w', ss. split; [exact E|split; [exact W'|split; [|split; [exact F|]]]].
      * intros s H. destruct (S1 s H) as [H1 H2]. destruct (S2 s H1) as [H3 H4]. split; [exact H3|congruence].
      * intro O. apply Forall_cons_iff in O. destruct O as [O1 O]. destruct (X O) as [X1 X2].
        rewrite X1, X2, B1. now split.
    + assert (W1 : wf (mkWr (w_mem w) (w_buf w) d)) by exact W.
      destruct (IH _ W1) as (w' & ss & E & W' & S2 & F & X). exists w', ss. split; [exact E|split; [exact W'|split; [|split; [exact F|]]]].
      * intros s H. apply (S2 s H).
      * intro O. apply Forall_cons_iff in O. destruct O as [O1 O]. apply (X O).
Qed.
Lemma new_wf d : wf (w_new d) /\ wbytes (w_new d) = [].
Proof. split; [unfold wf; cbn; lia|reflexivity]. Qed.
