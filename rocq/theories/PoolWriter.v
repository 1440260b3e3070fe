(** Writers whose free capacity is all zeros: never Reset. *)
From Coq Require Import List Bool Arith ZArith Lia.
Import ListNotations.
From Verif Require Import Base PrimModel PrimSpec PrimProofs PrimWriter CodecModel CodecProofs.
Open Scope nat_scope.

Definition free (w : writer) : list Z := firstn (s_cap (w_buf w) - s_len (w_buf w)) (skipn (s_off (w_buf w) + s_len (w_buf w)) (nth (s_arr (w_buf w)) (w_mem w) [])).
Definition sound (w : writer) : Prop := wf w /\ Forall (eq 0%Z) (free w).
Lemma zeros_repeat n : Forall (eq 0%Z) (repeat 0%Z n).
Proof. induction n; now constructor. Qed.
Lemma zeros_eq l : Forall (eq 0%Z) l -> l = repeat 0%Z (length l).
Proof. induction 1 as [|x l <- F IH]; [reflexivity|]. cbn. now rewrite <- IH. Qed.
Lemma Forall_firstn {A} (P : A -> Prop) n : forall l, Forall P l -> Forall P (firstn n l).
Proof. induction n as [|n IH]; intros l F; [constructor|]. destruct F; cbn; constructor; auto. Qed.
Lemma Forall_skipn {A} (P : A -> Prop) n : forall l, Forall P l -> Forall P (skipn n l).
Proof. induction n as [|n IH]; intros l F; [exact F|]. destruct F; cbn; [constructor|auto]. Qed.
Lemma window_split (a : list Z) off n m : firstn (n + m) (skipn off a) = firstn n (skipn off a) ++ firstn m (skipn (off + n) a).
Proof.
  rewrite <- skipn_skipn'. generalize (skipn off a). clear. induction n as [|n IH]; intro l; [reflexivity|]. destruct l as [|x l]; cbn; [now rewrite firstn_nil|]. now rewrite IH.
Qed.
Lemma ensure_sound w n : sound w -> exists w', w_ensure w n = Some w' /\ sound w' /\ s_len (w_buf w') = s_len (w_buf w) + n /\ wbytes w' = wbytes w ++ repeat 0%Z n.
Proof.
  intros [W F]. pose proof W as (A & B & C). destruct (ensure_ok w n W) as (w' & E & W' & L & FB & _). exists w'. split; [exact E|]. unfold w_ensure in E.
  assert (LB : length (wbytes w) = s_len (w_buf w)) by now apply wbytes_length.
  destruct (Nat.ltb_spec (s_cap (w_buf w) - s_len (w_buf w)) n) as [h|h].
  - cbv zeta in E. destruct (Z.ltb_spec (new_cap (w_def w) (s_len (w_buf w)) n) (Z.of_nat (s_len (w_buf w)))) as [h1|h1]; [discriminate|]. set (nc := Z.to_nat (new_cap (w_def w) (s_len (w_buf w)) n)) in *.
    cbn [w_buf s_cap s_arr s_off w_mem w_def] in E. destruct (Nat.ltb_spec nc (s_len (w_buf w) + n)) as [h2|h2]; [discriminate|]. injection E as <-. fold (wbytes w) in *.
    assert (N : nth (length (w_mem w)) (w_mem w ++ [wbytes w ++ repeat 0%Z (nc - s_len (w_buf w))]) [] = wbytes w ++ repeat 0%Z (nc - s_len (w_buf w))) by (rewrite app_nth2 by lia; now rewrite Nat.sub_diag).
    assert (R : skipn (s_len (w_buf w)) (wbytes w ++ repeat 0%Z (nc - s_len (w_buf w))) = repeat 0%Z (nc - s_len (w_buf w))).
    { rewrite skipn_app, skipn_all2 by lia. rewrite LB, Nat.sub_diag. reflexivity. }
    split; [split; [exact W'|]|split; [exact L|]].
    + unfold free. cbn [w_buf w_mem s_arr s_off s_len s_cap]. rewrite N. apply Forall_firstn. cbn [Nat.add]. rewrite <- skipn_skipn', R. apply Forall_skipn. apply zeros_repeat.
    + unfold wbytes at 1. unfold sl_bytes. cbn [w_buf w_mem s_arr s_off s_len s_cap]. rewrite N, window_split. cbn [Nat.add]. rewrite R. cbn [skipn]. f_equal.
      * rewrite firstn_app, firstn_all2 by lia. rewrite LB, Nat.sub_diag. cbn. now rewrite app_nil_r.
      * replace (nc - s_len (w_buf w)) with (n + (nc - s_len (w_buf w) - n)) by lia. rewrite repeat_app, firstn_app, repeat_length, Nat.sub_diag. cbn [firstn]. rewrite app_nil_r. apply firstn_all2. now rewrite repeat_length.
  - destruct (Nat.ltb_spec (s_cap (w_buf w)) (s_len (w_buf w) + n)) as [h1|h1]; [discriminate|]. injection E as <-.
    assert (SP : free w = firstn n (skipn (s_off (w_buf w) + s_len (w_buf w)) (nth (s_arr (w_buf w)) (w_mem w) [])) ++ firstn (s_cap (w_buf w) - (s_len (w_buf w) + n)) (skipn (s_off (w_buf w) + (s_len (w_buf w) + n)) (nth (s_arr (w_buf w)) (w_mem w) []))).
    { unfold free. rewrite Nat.add_assoc, <- window_split. f_equal. lia. }
    rewrite SP in F. apply Forall_app in F. destruct F as [F1 F2]. split; [split; [exact W'|exact F2]|]. split; [exact L|].
    unfold wbytes, sl_bytes. cbn [w_buf w_mem s_arr s_off s_len s_cap]. rewrite window_split. f_equal. rewrite (zeros_eq _ F1). f_equal. rewrite firstn_length, skipn_length. lia.
Qed.
Lemma overwrite_above {A} (a : list A) off len o b : o + length b <= off -> off + len <= length a -> firstn len (skipn off (overwrite a o b)) = firstn len (skipn off a).
Proof.
  intros P L. unfold overwrite. rewrite skipn_app, firstn_length, Nat.min_l by lia. rewrite (skipn_all2 (n := off) (firstn o a)) by (rewrite firstn_length; lia). cbn [app].
  rewrite skipn_app, (skipn_all2 (n := off - o) b) by lia. cbn [app]. rewrite skipn_skipn'. f_equal. f_equal. lia.
Qed.
Lemma store_sound w pos b w' : sound w -> w_store w pos b = Some w' -> sound w'.
Proof.
  intros [W F] E. pose proof W as (A & B & C). unfold w_store in E. destruct (Nat.ltb_spec (s_len (w_buf w)) (pos + length b)) as [h|h]; [discriminate|]. injection E as <-.
  unfold sound, wf, free in *. cbn [w_buf w_mem]. rewrite upd_nth_length, upd_nth_same by exact A. rewrite overwrite_length by lia. split; [lia|]. rewrite overwrite_above by lia. exact F.
Qed.
Lemma stores_sound l : forall st w w', sound w -> w_stores w l st = Some w' -> sound w'.
Proof.
  induction st as [|[p b] st IH]; intros w w' W E; cbn [w_stores] in E; [now injection E as <-|]. destruct (w_store w (l + p) b) as [w1|] eqn:S; [|discriminate]. apply (IH w1); [|exact E]. now apply (store_sound w (l + p) b).
Qed.
Lemma call_put w c : sound w -> exists w', w_call w c = Some w' /\ sound w' /\ wbytes w' = wbytes w ++ put c /\
  (forall s, away w s -> away w' s /\ sl_bytes (w_mem w') s = sl_bytes (w_mem w) s).
Proof.
  intros W. destruct (call_gen w c (proj1 W)) as (w' & E & W' & (t & _ & T & _) & AW). exists w'. split; [exact E|]. unfold w_call in E. unfold put. pose proof (call_stores_in c) as I. destruct (call_stores c) as [n st]. cbn [fst snd] in I.
  destruct (ensure_sound w n W) as (w1 & E1 & S1 & L1 & B1). rewrite E1 in E. split; [exact (stores_sound _ st w1 w' S1 E)|]. split; [|exact AW].
  destruct (stores_ok (s_len (w_buf w)) n st w1 (proj1 S1) L1 I) as (w2 & E2 & _ & _ & F2 & K2 & _). rewrite E in E2. injection E2 as <-.
  transitivity (firstn (s_len (w_buf w)) (wbytes w') ++ skipn (s_len (w_buf w)) (wbytes w')); [symmetry; apply firstn_skipn|]. rewrite F2, K2, B1. change (put_stores (repeat 0%Z n) st) with (apply_stores (repeat 0%Z n) st). pose proof (wbytes_length w (proj1 W)) as LB. f_equal.
  - rewrite firstn_app, firstn_all2 by lia. rewrite LB, Nat.sub_diag. cbn. apply app_nil_r.
  - f_equal. rewrite skipn_app, skipn_all2 by lia. now rewrite LB, Nat.sub_diag.
Qed.
Lemma Written_sound w : sound w -> sound (fst (w_Written w)) /\ wbytes (fst (w_Written w)) = [] /\
  sl_bytes (w_mem (fst (w_Written w))) (snd (w_Written w)) = wbytes w /\ away (fst (w_Written w)) (snd (w_Written w)) /\
  (forall s, away w s -> away (fst (w_Written w)) s /\ sl_bytes (w_mem (fst (w_Written w))) s = sl_bytes (w_mem w) s).
Proof.
  intros [W F]. destruct (Written_ok w W) as [W' R]. split; [|exact R]. split; [exact W'|]. unfold free, w_Written in *. cbn [fst w_buf w_mem s_arr s_off s_len s_cap]. now rewrite Nat.add_0_r, Nat.sub_0_r.
Qed.
Lemma new_sound d : sound (w_new d) /\ wbytes (w_new d) = [].
Proof. split; [|reflexivity]. split; [apply new_wf|]. constructor. Qed.
