(** The request table when the peer answers each frame at most once and in time. *)
From Coq Require Import ZArith List Bool Arith Lia Permutation.
Import ListNotations.
From Verif Require Import HolderModel HolderSpec HolderProofs.
Open Scope Z_scope.

Definition cntB (B : Z) (O : list Z) : Z := Z.of_nat (length (filter (fun n => n / 256 =? B) O)).
Definition border (B : Z) : Z := if (B mod 2 ^ 24 =? 0) || (B mod 2 ^ 24 =? 2 ^ 24 - 1) then 1 else 0.
(** the number of ids of row [B] handed out so far *)
Definition issued (g B : Z) : Z := if B <? g / 256 then 256 - border B else g mod 256 + (if B mod 2 ^ 24 =? 0 then 0 else 1).
(** [O]: the counters handed out and not answered *)
Record HP (h : holder) (g : Z) (O : list Z) : Prop := {
  hp_nd : NoDup O;
  hp_rng : forall n, In n O -> 0 < n <= g /\ valid n;
  hp_fake : forall n, 0 <= n -> (fake (slot_of h n) <> 0 <-> In n O);
  hp_freed : forall B, 0 <= B <= g / 256 -> 0 <= freed (rows h B) /\ freed (rows h B) + cntB B O = issued g B;
  hp_map : forall n, 0 <= n -> valid n -> n / 256 <= g / 256 -> In n O \/ g < n -> mget (reqs h) ((n / 256) mod 2 ^ 24) = Some (n / 256);
  hp_last : exists a, 0 <= a <= g /\ a - 256 * last h < 2 ^ 31 - 200 /\ forall n, valid n -> a < n <= g -> In n O;
  hp_keys : NoDup (map fst (reqs h));
  hp_cnt : u64 (got h - put h) = Z.of_nat (length O) }.
Definition W (g : Z) (O : list Z) : Prop := forall n, In n O -> g - n < 2 ^ 31 - 512.

Lemma cntB_app B O n : cntB B (O ++ [n]) = cntB B O + (if n / 256 =? B then 1 else 0).
Proof. unfold cntB. rewrite filter_app, app_length. cbn [filter]. destruct (n / 256 =? B); cbn [length]; lia. Qed.
Lemma cntB_perm B O O' : Permutation O O' -> cntB B O = cntB B O'.
Proof.
  unfold cntB. intro P. f_equal. apply Permutation_length. induction P as [|x l l' P IH|x y l|l l' l'' P1 IH1 P2 IH2]; [constructor|..].
  - cbn [filter]. destruct (x / 256 =? B); [now constructor|exact IH].
  - cbn [filter]. destruct (x / 256 =? B), (y / 256 =? B); try reflexivity. constructor.
  - now rewrite IH1.
Qed.
Lemma cntB_cons B n O : cntB B (n :: O) = cntB B O + (if n / 256 =? B then 1 else 0).
Proof. unfold cntB. cbn [filter]. destruct (n / 256 =? B); cbn [length]; lia. Qed.
Lemma cntB_nn B O : 0 <= cntB B O. Proof. unfold cntB. lia. Qed.
Lemma cntB_0 B O : cntB B O = 0 -> forall n, In n O -> n / 256 <> B.
Proof.
  unfold cntB. intros E n I Q. assert (F : In n (filter (fun n => n / 256 =? B) O)) by (apply filter_In; split; [exact I|now apply Z.eqb_eq]).
  destruct (filter _ O); [easy|cbn in E; lia].
Qed.
Lemma issued_le g B : issued g B <= 256.
Proof. unfold issued, border. pose proof (col_rng g). destruct (B <? g / 256), (B mod 2 ^ 24 =? 0), (B mod 2 ^ 24 =? 2 ^ 24 - 1); cbn [orb]; lia. Qed.
(** a row with all its ids handed out has no further usable id *)
Lemma high_border g : 0 <= g -> (g / 256) mod 2 ^ 24 = 2 ^ 24 - 1 -> g mod 256 = 255 -> g mod 2 ^ 32 = 2 ^ 32 - 1.
Proof.
  intros H A B. rewrite <- row_wrap in A. rewrite <- col_wrap in B. pose proof (split256 (g mod 2 ^ 32)). lia.
Qed.
Lemma low_border g : 0 <= g -> (g / 256) mod 2 ^ 24 = 0 -> g mod 256 = 0 -> g mod 2 ^ 32 = 0.
Proof. intros H A B. rewrite <- row_wrap in A. rewrite <- col_wrap in B. pose proof (split256 (g mod 2 ^ 32)). lia. Qed.
Lemma exhausted g n : 0 <= g -> valid g \/ g = 0 -> issued g (g / 256) = 256 - border (g / 256) -> g < n -> n / 256 = g / 256 -> ~ valid n.
Proof.
  intros H V E L R [V1 V2]. unfold issued, border in E. rewrite Z.ltb_irrefl in E. pose proof (col_rng g). pose proof (col_rng n). pose proof (split256 g). pose proof (split256 n).
  destruct (Z.eqb_spec ((g / 256) mod 2 ^ 24) 0) as [B|B]; cbn [orb] in E; [lia|]. destruct (Z.eqb_spec ((g / 256) mod 2 ^ 24) (2 ^ 24 - 1)) as [B2|B2]; [|lia].
  apply V2. apply high_border; [lia|now rewrite R|lia].
Qed.
Lemma res_far a b : a mod 2 ^ 24 = b mod 2 ^ 24 -> a <> b -> a + 2 ^ 24 <= b \/ b + 2 ^ 24 <= a.
Proof. intros E N. pose proof (Z.div_mod a (2 ^ 24) ltac:(lia)). pose proof (Z.div_mod b (2 ^ 24) ltac:(lia)). nia. Qed.
Lemma nextc_bound g : g < nextc g <= g + 3. Proof. unfold nextc. destruct (_ =? _); lia. Qed.
Lemma nextc_first g n : 0 <= g -> g < n < nextc g -> ~ valid n.
Proof.
  intros H L [V1 V2]. unfold nextc in L. destruct (Z.eqb_spec (g mod 2 ^ 32) (2 ^ 32 - 2)) as [E|]; [|lia].
  assert (D : n = g + 1 \/ n = g + 1 + 1) by lia. assert (M : (g + 1) mod 2 ^ 32 = 2 ^ 32 - 1) by (rewrite mod_succ, E; reflexivity).
  destruct D as [->| ->]; [now rewrite M in V2|]. rewrite mod_succ, M in V1. now apply V1.
Qed.
Lemma nextc_valid g : valid g \/ g = 0 -> valid (nextc g).
Proof.
  intros V. unfold nextc, valid. pose proof (Z.mod_pos_bound g (2 ^ 32) ltac:(lia)). destruct (Z.eqb_spec (g mod 2 ^ 32) (2 ^ 32 - 2)) as [E|E].
  - replace (g + 3) with (g + 1 + 1 + 1) by lia. rewrite !mod_succ, E. cbn. lia.
  - rewrite mod_succ. destruct V as [[V1 V2]| ->]; [|cbn; lia]. destruct (Z.eqb_spec (g mod 2 ^ 32) (2 ^ 32 - 1)); lia.
Qed.
Lemma valid_soon a : exists m, a < m <= a + 3 /\ valid m.
Proof.
  unfold valid. pose proof (Z.mod_pos_bound a (2 ^ 32) ltac:(lia)). destruct (Z.eq_dec (a mod 2 ^ 32) (2 ^ 32 - 2)) as [E|E].
  - exists (a + 1 + 1 + 1). split; [lia|]. rewrite !mod_succ, E. cbn. lia.
  - destruct (Z.eq_dec (a mod 2 ^ 32) (2 ^ 32 - 1)) as [E2|E2].
    + exists (a + 1 + 1). split; [lia|]. rewrite !mod_succ, E2. cbn. lia.
    + exists (a + 1). split; [lia|]. rewrite !mod_succ. destruct (Z.eqb_spec (a mod 2 ^ 32) (2 ^ 32 - 1)); lia.
Qed.
(** the rows touched by one call of getNext *)
Lemma next_rows g : 0 <= g -> valid g \/ g = 0 -> let g' := nextc g in
  (g' / 256 = g / 256 /\ g' mod 256 = g mod 256 + 1) \/
  (g' / 256 = g / 256 + 1 /\ issued g (g / 256) = 256 - border (g / 256) /\ issued g' (g' / 256) = 1).
Proof.
  intros H V. cbv zeta. pose proof (nextc_valid g V) as [V1 V2]. pose proof (split256 g) as S1. pose proof (split256 (nextc g)) as S2. pose proof (col_rng g). pose proof (col_rng (nextc g)).
  destruct (Z.eq_dec (nextc g / 256) (g / 256)) as [E|E].
  - left. split; [exact E|]. unfold nextc in *. destruct (Z.eqb_spec (g mod 2 ^ 32) (2 ^ 32 - 2)) as [Q|Q]; [|lia].
    exfalso. assert (g mod 256 = 254) by (rewrite <- col_wrap, Q; reflexivity). lia.
  - right. unfold nextc in *. destruct (Z.eqb_spec (g mod 2 ^ 32) (2 ^ 32 - 2)) as [Q|Q].
    + assert (C : g mod 256 = 254) by (rewrite <- col_wrap, Q; reflexivity). assert (R : (g / 256) mod 2 ^ 24 = 2 ^ 24 - 1) by (rewrite <- row_wrap, Q; reflexivity).
      assert (E2 : (g + 3) / 256 = g / 256 + 1) by lia. assert (R' : ((g + 3) / 256) mod 2 ^ 24 = 0).
      { rewrite E2, <- Zplus_mod_idemp_l, R. reflexivity. }
      split; [exact E2|]. unfold issued, border. rewrite !Z.ltb_irrefl, R, R'. cbn. lia.
    + assert (E2 : (g + 1) / 256 = g / 256 + 1) by lia. split; [exact E2|]. unfold issued, border. rewrite !Z.ltb_irrefl.
      assert (C : g mod 256 = 255) by lia. assert (C' : (g + 1) mod 256 = 0) by lia. split.
      * destruct (Z.eqb_spec ((g / 256) mod 2 ^ 24) 0) as [B|B]; cbn [orb]; [lia|]. destruct (Z.eqb_spec ((g / 256) mod 2 ^ 24) (2 ^ 24 - 1)) as [B2|B2]; [|lia].
        pose proof (high_border g H B2 C). destruct V as [[_ V]| ->]; [easy|]. discriminate.
      * destruct (Z.eqb_spec (((g + 1) / 256) mod 2 ^ 24) 0) as [B|B]; [|lia]. elim V1. apply low_border; [lia|exact B|exact C'].
Qed.

Lemma bounded_len (O : list Z) g N : NoDup O -> 0 <= N -> (forall n, In n O -> 0 <= g - n < N) -> Z.of_nat (length O) <= N.
Proof.
  intros ND HN H. assert (LEN : (length O <= length (map (fun i : nat => (g - Z.of_nat i)%Z) (seq 0 (Z.to_nat N))))%nat).
  { apply NoDup_incl_length; [exact ND|]. intros n Q. apply in_map_iff. exists (Z.to_nat (g - n)). pose proof (H _ Q). split; [rewrite Z2Nat.id by lia; lia|].
    apply in_seq. split; [lia|]. cbn [plus]. apply Z2Nat.inj_lt; lia. }
  rewrite map_length, seq_length in LEN. lia.
Qed.
Lemma HP_init : HP h_init 0 [].
Proof.
  constructor; try (now constructor); try easy.
  - intros B Hb. assert (B = 0) by (change (0 / 256) with 0 in Hb; lia). subst B. split; [cbn; lia|reflexivity].
  - intros n Hn V R _. change (0 / 256) with 0 in R. assert (E : n / 256 = 0) by (pose proof (Z.div_pos n 256 Hn); lia). rewrite E. reflexivity.
  - exists 0. cbn. split; [lia|split; [lia|]]. intros n _ L. lia.
  - cbn. constructor; [easy|constructor].
Qed.

Lemma HP_next h h' g O : U h g -> HP h g O -> (valid g \/ g = 0) -> got_next h h' g (nextc g) -> W (nextc g) O -> HP h' (nextc g) (O ++ [nextc g]).
Proof.
  intros Hu [p1 p2 p3 p4 p5 p6 p7 p8] V [g1 g2 g3 g4 g5 g6 g7 g8] Hw. set (g' := nextc g) in *. pose proof (u_c _ _ Hu) as G0. pose proof (nextc_bound g) as NB. fold g' in NB.
  pose proof (nextc_valid g V) as V'. fold g' in V'. pose proof (next_rows g G0 V) as NR. cbv zeta in NR. fold g' in NR.
  assert (NI : ~ In g' O) by (intro Q; apply p2 in Q; lia).
  assert (IN : forall n, In n (O ++ [g']) <-> In n O \/ n = g').
  { intro n. rewrite in_app_iff. cbn. intuition congruence. }
  assert (RM : forall n, n / 256 <= g' / 256 -> n / 256 <> g' / 256 -> n / 256 <= g / 256) by (intros n Q1 Q2; destruct NR as [[Q _]|[Q _]]; lia).
  pose proof (split256 g) as S1. pose proof (split256 g') as S2. pose proof (col_rng g) as C1. pose proof (col_rng g') as C2.
  constructor.
  - apply (Permutation_NoDup (Permutation_cons_append _ g')). now constructor.
  - intros n Q. apply IN in Q. destruct Q as [Q| ->]; [|split; [lia|exact V']]. apply p2 in Q. split; [lia|tauto].
  - intros n Hn. rewrite g2, IN. destruct (Z.eqb_spec n g') as [->|N].
    + cbn [fake]. split; [now right|]. intros _. apply V'.
    + rewrite p3 by exact Hn. intuition congruence.
  - intros B HB. rewrite g8, cntB_app. destruct NR as [[E1 E2]|[E1 [E2 E3]]].
    + rewrite E1, Z.eqb_refl in *. cbn [orb]. destruct (p4 B HB) as [F1 F2]. split; [exact F1|]. rewrite Z.add_assoc, F2. unfold issued. rewrite E1, E2.
      destruct (Z.eqb_spec (g / 256) B) as [<-|N]; [rewrite Z.ltb_irrefl; destruct (_ =? _); lia|]. destruct (Z.ltb_spec B (g / 256)); lia.
    + destruct (Z.eqb_spec (g' / 256) (g / 256)); [lia|]. cbn [orb]. destruct (Z.eqb_spec B (g' / 256)) as [->|N]; cbn [negb].
      * rewrite Z.eqb_refl, E3. split; [lia|]. destruct (Z.eq_dec (cntB (g' / 256) O) 0) as [Q|Q]; [lia|].
        exfalso. unfold cntB in Q. destruct (filter (fun n => n / 256 =? g' / 256) O) as [|x l] eqn:F; [easy|].
        assert (Q2 : In x (filter (fun n => n / 256 =? g' / 256) O)) by (rewrite F; now left). apply filter_In in Q2. destruct Q2 as [Q2 Q3%Z.eqb_eq].
        apply p2 in Q2. pose proof (split256 x). pose proof (col_rng x). lia.
      * assert (HB' : 0 <= B <= g / 256) by lia. destruct (p4 B HB') as [F1 F2]. split; [exact F1|]. destruct (Z.eqb_spec (g' / 256) B); [lia|]. rewrite Z.add_0_r, F2.
        unfold issued at 2. destruct (Z.ltb_spec B (g' / 256)); [|lia]. destruct (Z.eq_dec B (g / 256)) as [->|N2]; [exact E2|]. unfold issued. destruct (Z.ltb_spec B (g / 256)); [reflexivity|lia].
  - intros n Hn Vn Rn Q. rewrite g7. destruct NR as [[E1 E2]|[E1 [E2 E3]]].
    + rewrite E1, Z.eqb_refl in *. apply p5; [exact Hn|exact Vn|exact Rn|]. destruct Q as [Q|Q]; [|right; lia]. apply IN in Q. destruct Q as [Q| ->]; [now left|right; lia].
    + destruct (Z.eqb_spec (g' / 256) (g / 256)); [lia|]. rewrite mget_set. destruct (Z.eqb_spec ((n / 256) mod 2 ^ 24) ((g' / 256) mod 2 ^ 24)) as [D|D].
      * destruct (Z.eq_dec (n / 256) (g' / 256)) as [->|N]; [reflexivity|]. exfalso. apply res_far in D; [|exact N]. destruct D as [D|D]; [|lia].
        destruct Q as [Q|Q]; [|pose proof (split256 n); pose proof (col_rng n); lia]. apply IN in Q. destruct Q as [Q| ->]; [|now elim N].
        apply Hw in Q. pose proof (split256 n). pose proof (col_rng n). lia.
      * assert (N : n / 256 <> g' / 256) by (intro Q2; apply D; now rewrite Q2). apply p5; [exact Hn|exact Vn|now apply RM|]. destruct Q as [Q|Q].
        -- apply IN in Q. destruct Q as [Q| ->]; [now left|easy].
        -- right. lia.
  - destruct p6 as (a & A1 & A2 & A3). exists a. rewrite g5. split; [lia|split; [exact A2|]]. intros n Vn L. apply IN.
    destruct (Z_le_gt_dec n g) as [L2|L2]; [left; apply A3; [exact Vn|lia]|]. right. destruct (Z.eq_dec n g') as [Q|Q]; [exact Q|]. exfalso. apply (nextc_first g n G0); [fold g'; lia|exact Vn].
  - rewrite g7. destruct (_ =? _); [exact p7|now apply keys_set].
  - rewrite g3, g4, app_length. cbn [length].
    assert (E : u64 (u64 (got h + 1) - put h) = u64 (u64 (got h - put h) + 1)).
    { unfold u64. rewrite Zminus_mod_idemp_l, Zplus_mod_idemp_l. f_equal. lia. }
    rewrite E, p8. unfold u64. rewrite Z.mod_small; [lia|].
    pose proof (bounded_len O g' (2 ^ 32) p1 ltac:(lia)) as LEN. assert (BD : forall n, In n O -> 0 <= g' - n < 2 ^ 32) by (intros n Q; pose proof (Hw _ Q); pose proof (p2 _ Q); lia).
    specialize (LEN BD). lia.
Qed.

Lemma HP_ext h h' g O : HP h g O -> (forall n, fake (slot_of h' n) = fake (slot_of h n)) -> (forall B, freed (rows h' B) = freed (rows h B)) ->
  reqs h' = reqs h -> last h' = last h -> got h' = got h -> put h' = put h -> HP h' g O.
Proof.
  intros [p1 p2 p3 p4 p5 p6 p7 p8] F R M L G P. constructor; rewrite ?M, ?L, ?G, ?P; try assumption.
  - intros n Hn. rewrite F. now apply p3.
  - intros B HB. rewrite R. now apply p4.
Qed.
Lemma HP_perm h g O O' : HP h g O -> Permutation O O' -> HP h g O'.
Proof.
  intros [p1 p2 p3 p4 p5 p6 p7 p8] P. assert (IN : forall n, In n O' <-> In n O) by (intro n; split; apply Permutation_in; [now symmetry|exact P]).
  constructor; try assumption.
  - now apply (Permutation_NoDup P).
  - intros n Q. apply p2. now apply IN.
  - intros n Hn. rewrite IN. now apply p3.
  - intros B HB. rewrite <- (cntB_perm B O O' P). now apply p4.
  - intros n Hn Vn Rn Q. apply p5; try assumption. now rewrite <- IN.
  - destruct p6 as (a & A1 & A2 & A3). exists a. split; [exact A1|split; [exact A2|]]. intros n Vn L. apply IN. now apply A3.
  - now rewrite <- (Permutation_length P).
Qed.
Lemma in_window g O n n' : W g O -> In n O -> (In n' O \/ g < n') -> 0 <= n -> n <= g -> 0 <= n' -> n' / 256 <= g / 256 -> (n / 256) mod 2 ^ 24 = (n' / 256) mod 2 ^ 24 -> n / 256 = n' / 256.
Proof.
  intros Hw I I' H1 H2 H3 H4 E. destruct (Z.eq_dec (n / 256) (n' / 256)) as [Q|Q]; [exact Q|]. exfalso. pose proof (Hw _ I).
  pose proof (split256 n). pose proof (col_rng n). pose proof (split256 n'). pose proof (col_rng n'). pose proof (split256 g). pose proof (col_rng g).
  apply res_far in E; [|exact Q]. destruct E as [E|E]; [lia|]. destruct I' as [I'|I']; [pose proof (Hw _ I'); lia|lia].
Qed.
Lemma HP_remove h g O n0 : U h g -> (valid g \/ g = 0) -> HP h g (n0 :: O) -> W g (n0 :: O) ->
  exists h', remove h (n0 mod 2 ^ 32) = Some (h', own (slot_of h n0)) /\ removed h h' g n0 /\ HP h' g O.
Proof.
  intros Hu V [p1 p2 p3 p4 p5 p6 p7 p8] Hw. pose proof (p2 n0 (or_introl eq_refl)) as [N0 Vn0]. pose proof (u_c _ _ Hu) as G0.
  assert (R0 : n0 / 256 <= g / 256) by (apply Z.div_le_mono; lia).
  pose proof (split256 n0) as S0. pose proof (col_rng n0) as C0. pose proof (split256 g) as Sg. pose proof (col_rng g) as Cg. pose proof (Hw n0 (or_introl eq_refl)) as W0.
  assert (FR : find_row h ((n0 mod 2 ^ 32) / 256) = Some (n0 / 256)).
  { unfold find_row. rewrite row_wrap. destruct (Z.eqb_spec (lastBig h) ((n0 / 256) mod 2 ^ 24)) as [E|E]; cbn [negb].
    - f_equal. destruct (u_last _ _ Hu) as [L1 L2]. destruct p6 as (a & A1 & A2 & A3). rewrite L1 in E. destruct (Z.eq_dec (last h) (n0 / 256)) as [Q|Q]; [exact Q|]. exfalso.
      apply res_far in E; [|exact Q]. destruct E as [E|E]; [|lia]. destruct (Z_le_gt_dec n0 a) as [L|L]; [lia|].
      destruct (valid_soon a) as (m & M1 & M2). destruct (Z_le_gt_dec m g) as [L3|L3]; [|lia]. assert (Im : In m (n0 :: O)) by (apply A3; [exact M2|lia]).
      apply Hw in Im. lia.
    - apply p5; [lia|exact Vn0|exact R0|left; now left]. }
  assert (ID : 0 <= n0 mod 2 ^ 32 < 2 ^ 32) by (apply Z.mod_pos_bound; lia).
  destruct (remove_ok h g (n0 mod 2 ^ 32) Hu ID _ FR) as (h' & n & E & N1 & N2 & N3 & N4 & RM).
  assert (n = n0). { apply pos_eq; [exact N2|]. rewrite <- (col_wrap n), N4. apply col_wrap. } subst n.
  exists h'. split; [exact E|split; [exact RM|]]. destruct RM as [r1 r2 r3 r4 r5 r6 r7]. apply NoDup_cons_iff in p1. destruct p1 as [p1a p1b].
  assert (B0 : 0 <= n0 / 256) by (apply Z.div_pos; lia).
  destruct (p4 (n0 / 256) ltac:(lia)) as [F1 F2]. rewrite cntB_cons, Z.eqb_refl in F2. pose proof (cntB_nn (n0 / 256) O) as CN. pose proof (issued_le g (n0 / 256)) as IL.
  assert (UF : u32 (freed (rows h (n0 / 256)) + 1) = freed (rows h (n0 / 256)) + 1) by (unfold u32; apply Z.mod_small; lia).
  assert (IN : forall n, In n O -> n <> n0) by (intros n Q ->; now apply p1a).
  constructor.
  - exact p1b.
  - intros n Q. apply p2. now right.
  - intros n Hn. rewrite r2. destruct (Z.eqb_spec n n0) as [->|N]; [cbn [fake]; tauto|]. rewrite p3 by exact Hn. cbn [In]. intuition congruence.
  - intros B HB. rewrite r7. destruct (p4 B HB) as [F3 F4]. rewrite cntB_cons in F4. destruct (Z.eqb_spec B (n0 / 256)) as [->|N].
    + rewrite UF. lia.
    + destruct (Z.eqb_spec (n0 / 256) B); [congruence|]. lia.
  - intros n Hn Vn Rn Q. rewrite r6. assert (Q' : In n (n0 :: O) \/ g < n) by (destruct Q as [Q|Q]; [left; now right|now right]).
    assert (M : mget (reqs h) ((n / 256) mod 2 ^ 24) = Some (n / 256)) by (apply p5; assumption).
    destruct (row_done (u32 (freed (rows h (n0 / 256)) + 1)) ((n0 / 256) mod 2 ^ 24)) eqn:D; [|exact M]. rewrite mget_del.
    destruct (Z.eqb_spec ((n / 256) mod 2 ^ 24) ((n0 / 256) mod 2 ^ 24)) as [E2|E2]; [|exact M]. exfalso.
    assert (SR : n0 / 256 = n / 256) by (apply (in_window g (n0 :: O)); [exact Hw|now left|exact Q'|lia|lia|exact Hn|exact Rn|now symmetry]).
    rewrite UF in D. unfold row_done in D.
    assert (FULL : issued g (n0 / 256) = 256 - border (n0 / 256) /\ cntB (n0 / 256) O = 0).
    { assert (LE : issued g (n0 / 256) <= 256 - border (n0 / 256)).
      { unfold issued. destruct (Z.ltb_spec (n0 / 256) (g / 256)) as [L|L]; [lia|]. assert (EB : n0 / 256 = g / 256) by lia. rewrite EB. unfold border.
        destruct (Z.eqb_spec ((g / 256) mod 2 ^ 24) 0) as [B|B]; cbn [orb]; [lia|]. destruct (Z.eqb_spec ((g / 256) mod 2 ^ 24) (2 ^ 24 - 1)) as [B2|B2]; [|lia].
        destruct (Z.eq_dec (g mod 256) 255) as [C|C]; [|lia]. pose proof (high_border g G0 B2 C). destruct V as [[_ V]|V]; [easy|]. rewrite V in *. discriminate. }
      unfold border in *. apply orb_true_iff in D. destruct D as [D%Z.eqb_eq|D]; [destruct (_ || _) in *; lia|]. apply andb_true_iff in D. destruct D as [D%Z.eqb_eq D2].
      rewrite D2 in *. lia. }
    destruct FULL as [FU C]. destruct Q as [Q|Q]; [now apply (cntB_0 _ _ C n Q)|].
    assert (EB : n / 256 = g / 256) by (apply Z.le_antisymm; [exact Rn|apply Z.div_le_mono; lia]). rewrite SR, EB in FU. now apply (exhausted g n G0 V FU Q EB).
  - exists g. rewrite r5. split; [lia|split; [lia|]]. intros n _ L. lia.
  - rewrite r6. destruct (row_done _ _); [now apply keys_del|exact p7].
  - rewrite r3, r4. cbn [length] in p8. assert (E3 : u64 (got h - u64 (put h + 1)) = u64 (u64 (got h - put h) - 1)).
    { unfold u64. rewrite Zminus_mod_idemp_l, Zminus_mod_idemp_r. f_equal. lia. }
    rewrite E3, p8. unfold u64. rewrite Z.mod_small; [lia|]. unfold u64 in p8. pose proof (Z.mod_pos_bound (got h - put h) (2 ^ 64) ltac:(lia)). lia.
Qed.

(** ** Facts about traces *)
Definition X : Z := 2 ^ 31 - 2 ^ 10.
Lemma answer_in l i w : In w (answer l i) -> In w l.
Proof. induction l as [|v l IH]; cbn [answer]; [easy|]. destruct (w_id v =? i); [now right|]. intros [->|Q]; [now left|right; auto]. Qed.
Lemma unanswered_snoc t o : unanswered (t ++ [o]) =
  match o with OWire i r => unanswered t ++ [mkWait i r (nsent t)] | OGot i _ _ => answer (unanswered t) i | _ => unanswered t end.
Proof. unfold unanswered, nsent. rewrite tracked_snoc. now destruct o. Qed.
Lemma unanswered_quiet t o : match o with OWire _ _ | OGot _ _ _ => False | _ => True end -> unanswered (t ++ [o]) = unanswered t.
Proof. rewrite unanswered_snoc. now destruct o. Qed.
Lemma nsent_snoc t o : nsent (t ++ [o]) = nsent t + match o with OWire _ _ => 1 | _ => 0 end.
Proof. unfold nsent. rewrite tracked_snoc. destruct o; cbn [track snd]; lia. Qed.
Lemma un_wires t : forall w, In w (unanswered t) -> 0 <= w_nth w < nsent t /\ nth_error (wires t) (Z.to_nat (w_nth w)) = Some (w_id w, w_req w).
Proof.
  induction t as [|o t IH] using rev_ind; [easy|]. intros w Q. rewrite unanswered_snoc in Q. rewrite nsent_snoc, wires_app. pose proof (nsent_nn t) as NN.
  assert (OLD : In w (unanswered t) -> 0 <= w_nth w < nsent t + match o with OWire _ _ => 1 | _ => 0 end /\ nth_error (wires t ++ wires [o]) (Z.to_nat (w_nth w)) = Some (w_id w, w_req w)).
  { intro I. destruct (IH w I) as [A B]. split; [destruct o; lia|]. rewrite nth_error_app1; [exact B|]. apply nth_lt in B. exact B. }
  destruct o as [i r|i code body|r x|]; try (now apply OLD).
  - apply in_app_or in Q. destruct Q as [Q|[<-|[]]]; [now apply OLD|]. cbn [w_nth w_id w_req]. split; [lia|]. rewrite nsent_wires, Nat2Z.id. rewrite nth_error_app2, Nat.sub_diag by lia. reflexivity.
  - apply OLD. now apply answer_in in Q.
Qed.
Lemma answer_nd l i : NoDup (map w_nth l) -> NoDup (map w_nth (answer l i)).
Proof.
  induction l as [|v l IH]; cbn [answer map]; [easy|]. intro N. apply NoDup_cons_iff in N. destruct N as [N1 N2]. destruct (w_id v =? i); [exact N2|]. cbn [map].
  apply NoDup_cons_iff. split; [|now apply IH]. intro Q. apply N1. apply in_map_iff in Q. destruct Q as (w & <- & Q). apply in_map. now apply answer_in in Q.
Qed.
Lemma un_nd t : NoDup (map w_nth (unanswered t)).
Proof.
  induction t as [|o t IH] using rev_ind; [constructor|]. rewrite unanswered_snoc. destruct o as [i r|i code body|r x|]; try exact IH.
  - rewrite map_app. cbn [map w_nth]. apply (Permutation_NoDup (Permutation_cons_append _ _)). constructor; [|exact IH].
    intro Q. apply in_map_iff in Q. destruct Q as (w & E & Q). apply un_wires in Q. lia.
  - now apply answer_nd.
Qed.
Lemma un_timely t : timely t -> forall w, In w (unanswered t) -> nsent t - w_nth w <= X.
Proof.
  induction t as [|o t IH] using rev_ind; [easy|]. intros T w Q. pose proof (timely_pre _ _ T) as T'. rewrite unanswered_snoc in Q. rewrite nsent_snoc. unfold X in *. destruct o as [i r|i code body|r x|].
  - apply in_app_or in Q. destruct Q as [Q|[<-|[]]]; [|cbn [w_nth]; lia]. specialize (T t i r [] eq_refl). rewrite Forall_forall in T. apply T in Q. lia.
  - apply answer_in in Q. specialize (IH T' w Q). lia.
  - specialize (IH T' w Q). lia.
  - specialize (IH T' w Q). lia.
Qed.
(** the answered frame leaves the list; the others stay *)
Lemma answer_perm l i : In i (map w_id l) -> exists w, In w l /\ w_id w = i /\ Permutation l (w :: answer l i).
Proof.
  induction l as [|v l IH]; [easy|]. cbn [map answer]. intro Q. destruct (Z.eqb_spec (w_id v) i) as [E|E].
  - exists v. split; [now left|split; [exact E|reflexivity]].
  - destruct Q as [Q|Q]; [easy|]. destruct (IH Q) as (w & I & E2 & P). exists w. split; [now right|split; [exact E2|]]. rewrite P at 1. constructor.
Qed.

(** ** getAll *)
Lemma live_in w j : In j (row_live w) <-> 0 <= j < 256 /\ fake (slots w j) <> 0 /\ own (slots w j) <> None.
Proof.
  unfold row_live. rewrite filter_In, andb_true_iff, negb_true_iff, Z.eqb_neq.
  assert (I : In j idxs <-> 0 <= j < 256).
  { unfold idxs. rewrite in_map_iff. split; [intros (k & <- & K); apply in_seq in K; lia|]. intro H. exists (Z.to_nat j). rewrite in_seq. lia. }
  rewrite I. destruct (own (slots w j)); intuition congruence.
Qed.
Lemma live_nd w : NoDup (row_live w).
Proof. unfold row_live. apply NoDup_filter. unfold idxs. apply FinFun.Injective_map_NoDup; [intros a b E; lia|apply seq_NoDup]. Qed.
Definition all_live (h : holder) (m : list (Z * Z)) : list (Z * Z) := flat_map (fun e => map (fun j => (snd e, j)) (row_live (rows h (snd e)))) m.
Lemma all_live_in h m B j : In (B, j) (all_live h m) <-> (exists b, In (b, B) m) /\ In j (row_live (rows h B)).
Proof.
  unfold all_live. rewrite in_flat_map. split.
  - intros ([b B'] & I & Q). cbn [snd] in Q. apply in_map_iff in Q. destruct Q as (j' & E & Q). injection E as -> ->. split; [now exists b|exact Q].
  - intros [[b I] Q]. exists (b, B). split; [exact I|]. cbn [snd]. apply in_map_iff. now exists j.
Qed.
Lemma all_live_nd h m : NoDup (map snd m) -> NoDup (all_live h m).
Proof.
  induction m as [|[b B] m IH]; [constructor|]. cbn [map snd all_live flat_map]. intro N. apply NoDup_cons_iff in N. destruct N as [N1 N2]. fold (all_live h m).
  assert (D : forall l1 l2 : list (Z * Z), NoDup l1 -> NoDup l2 -> (forall x, In x l1 -> ~ In x l2) -> NoDup (l1 ++ l2)).
  { induction l1 as [|x l1 IHl]; intros l2 H1 H2 H3; [exact H2|]. apply NoDup_cons_iff in H1. destruct H1 as [H1 H1']. cbn [app]. constructor.
    - intro Q. apply in_app_or in Q. destruct Q as [Q|Q]; [easy|]. apply (H3 x); [now left|exact Q].
    - apply IHl; [exact H1'|exact H2|]. intros y Hy. apply H3. now right. }
  apply D; [apply FinFun.Injective_map_NoDup; [intros x y E; now injection E|apply live_nd]|now apply IH|]. intros [B' j] Q1 Q2.
  apply in_map_iff in Q1. destruct Q1 as (j' & E & _). injection E as <- <-. apply all_live_in in Q2. destruct Q2 as [[b' Q2] _]. apply N1. apply in_map_iff. now exists (b', B).
Qed.
Lemma getAll_ok h g O : U h g -> HP h g O -> W g O ->
  exists l, getAll h = Some l /\ (forall B j, In (B, j) l <-> exists n, In n O /\ B = n / 256 /\ j = n mod 256 /\ own (slot_of h n) <> None).
Proof.
  intros Hu [p1 p2 p3 p4 p5 p6 p7 p8] Hw.
  assert (BD : Z.of_nat (length O) <= 2 ^ 32) by (apply (bounded_len O g (2 ^ 32) p1); [lia|]; intros n Q; pose proof (Hw _ Q); pose proof (p2 _ Q); lia).
  assert (NS : NoDup (map snd (reqs h))).
  { assert (K : forall m, (forall b B, In (b, B) m -> b = B mod 2 ^ 24) -> NoDup (map fst m) -> NoDup (map snd m)).
    { induction m as [|[b B] m IH]; intros H N; [constructor|]. cbn [map fst snd] in *. apply NoDup_cons_iff in N. destruct N as [N1 N2]. constructor.
      - intro Q. apply in_map_iff in Q. destruct Q as ([b' B'] & E & Q). cbn in E. subst B'. apply N1. apply in_map_iff. exists (b', B). split; [|exact Q]. cbn.
        rewrite (H b B (or_introl eq_refl)). apply H. now right.
      - apply IH; [|exact N2]. intros b' B' Q. apply H. now right. }
    apply K; [|exact p7]. intros b B Q. now apply (u_map _ _ Hu) in Q. }
  assert (CH : forall B j, In (B, j) (all_live h (reqs h)) <-> exists n, In n O /\ B = n / 256 /\ j = n mod 256 /\ own (slot_of h n) <> None).
  { intros B j. rewrite all_live_in, live_in. split.
    - intros [[b I] (J & F & Ow)]. apply (u_map _ _ Hu) in I. destruct (pos_mk B j J) as [P1 P2]. exists (256 * B + j). unfold slot_of. rewrite P1, P2. split; [|now repeat split].
      apply p3; [lia|]. unfold slot_of. now rewrite P1, P2.
    - intros (n & I & -> & -> & Ow). destruct (p2 n I) as [R V]. split.
      + exists ((n / 256) mod 2 ^ 24). apply mget_in. apply p5; [lia|exact V|apply Z.div_le_mono; lia|now left].
      + split; [apply col_rng|split; [|exact Ow]]. apply (p3 n); [lia|exact I]. }
  exists (all_live h (reqs h)). split; [|exact CH]. unfold getAll. fold (all_live h (reqs h)). rewrite p8.
  destruct (Z.leb_spec (2 ^ 45) (Z.of_nat (length O))); [lia|].
  assert (LL : (length (all_live h (reqs h)) <= length O)%nat).
  { rewrite <- (map_length (fun e => 256 * fst e + snd e) (all_live h (reqs h))). apply NoDup_incl_length.
    - assert (K : forall l : list (Z * Z), (forall B j, In (B, j) l -> 0 <= j < 256) -> NoDup l -> NoDup (map (fun e => 256 * fst e + snd e) l)).
      { induction l as [|[B j] l IH]; intros H0 N; [constructor|]. apply NoDup_cons_iff in N. destruct N as [N1 N2]. cbn [map fst snd]. constructor.
        - intro Q. apply in_map_iff in Q. destruct Q as ([B' j'] & E & Q). cbn [fst snd] in E. assert (J := H0 B j (or_introl eq_refl)). assert (J' := H0 B' j' (or_intror Q)).
          assert (B' = B /\ j' = j) as [-> ->] by lia. easy.
        - apply IH; [|exact N2]. intros B' j' Q. apply (H0 B'). now right. }
      apply K; [|now apply all_live_nd]. intros B j Q. apply all_live_in in Q. destruct Q as [_ Q]. now apply live_in in Q.
    - intros x Q. apply in_map_iff in Q. destruct Q as ([B j] & <- & Q). apply CH in Q. destruct Q as (n & I & -> & -> & _). cbn [fst snd]. now rewrite <- split256. }
  destruct (Z.ltb_spec (Z.of_nat (length O)) (Z.of_nat (length (all_live h (reqs h))))); [lia|reflexivity].
Qed.

(** ** The connection, when the peer is polite and timely *)
Definition opens (c : conn) (t : list obs) : list Z :=
  map (fun w => cntr (w_nth w)) (unanswered t) ++ match pre c with Some _ => [cntr (nsent t)] | None => [] end.
Definition top (c : conn) (t : list obs) : Z := cc (nsent t + has (pre c)).
Record PI (c : conn) (t : list obs) : Prop := {
  pi_hp : HP (hold c) (top c t) (opens c t);
  pi_fly : forall r w i, rs c r = RFly w i -> (exists x, In x (unanswered t) /\ w_req x = r) \/ (exists code body, reader c = Some (Some r, code, body));
  pi_closed : open c = false -> reader c = None /\ forall r w i, rs c r = RFly w i -> In (w, i) (flush c);
  pi_flush : forall w i, In (w, i) (flush c) -> open c = false /\ exists x, In x (unanswered t) /\ w = cntr (w_nth x) / 256 /\ i = cntr (w_nth x) mod 256 }.
Lemma un_id c t w : CI c t -> In w (unanswered t) -> w_id w = nth_id (w_nth w).
Proof. intros I Q. destruct (un_wires t w Q) as [A B]. apply (ci_ids _ _ I) in B. cbn [fst] in B. now rewrite Z2Nat.id in B by lia. Qed.
Lemma W_top (c : conn) t p : timely t -> (p = nsent t \/ p = nsent t + 1) -> W (cc p) (map (fun w => cntr (w_nth w)) (unanswered t)).
Proof.
  intros T Hp n Q. apply in_map_iff in Q. destruct Q as (w & <- & Q). pose proof (un_timely t T w Q) as B. destruct (un_wires t w Q) as [A _]. unfold X in B. unfold cc.
  destruct (Z.eqb_spec p 0); [lia|]. pose proof (cntr_diff (w_nth w) (p - 1) ltac:(lia) ltac:(lia)). lia.
Qed.
Lemma W_opens c t : timely t -> W (top c t) (opens c t).
Proof.
  intros T n Q. unfold opens in Q. apply in_app_or in Q. destruct Q as [Q|Q].
  - revert n Q. apply (W_top c t _ T). destruct (pre c); cbn [has]; lia.
  - unfold top. destruct (pre c); [|easy]. destruct Q as [<-|[]]. cbn [has]. rewrite cc_succ by apply nsent_nn. lia.
Qed.
Lemma never_next_snoc t o : never_next t -> (forall i code body, o = OGot i code body -> i <> nth_id (nsent t)) -> never_next (t ++ [o]).
Proof.
  intros N H p i code body q E. destruct q as [|x q] using rev_ind.
  - apply app_inj_tail in E. destruct E as [-> ->]. now apply (H i code body).
  - clear IHq. rewrite app_comm_cons, app_assoc in E. apply app_inj_tail in E. destruct E as [-> _]. now apply (N p i code body q).
Qed.
Lemma nth_id_far k k' : 0 <= k < k' -> k' - k < 2 ^ 32 - 2 -> nth_id k <> nth_id k'.
Proof.
  intros H L E. unfold nth_id in E. pose proof (Z.div_mod k (2 ^ 32 - 2) ltac:(lia)). pose proof (Z.div_mod k' (2 ^ 32 - 2) ltac:(lia)).
  pose proof (Z.mod_pos_bound k (2 ^ 32 - 2) ltac:(lia)). pose proof (Z.mod_pos_bound k' (2 ^ 32 - 2) ltac:(lia)). nia.
Qed.
Lemma polite_next c t i code body : CI c t -> timely t -> polite (t ++ [OGot i code body]) -> i <> nth_id (nsent t) /\ In i (map w_id (unanswered t)).
Proof.
  intros I T P. specialize (P t i code body [] eq_refl). split; [|exact P]. apply in_map_iff in P. destruct P as (w & <- & Q). rewrite (un_id c t w I Q).
  destruct (un_wires t w Q) as [A _]. pose proof (un_timely t T w Q) as B. unfold X in B. apply nth_id_far; lia.
Qed.
Lemma un_fly c t x r w i : CI c t -> In x (unanswered t) -> w_req x = r -> rs c r = RFly w i -> w = cntr (w_nth x) / 256 /\ i = cntr (w_nth x) mod 256 /\ own (slot_of (hold c) (cntr (w_nth x))) = Some r.
Proof.
  intros I Q <- F. destruct (un_wires t x Q) as [A B]. destruct (ci_fly _ _ I _ _ _ F) as (k & K & K1 & K2 & K3).
  pose proof (nth_wires_fly t _ _ _ _ _ (ci_once _ _ I) K B) as E. subst k. rewrite Z2Nat.id in * by lia. now repeat split.
Qed.
Lemma pos_req c t x r : CI c t -> In x (unanswered t) -> own (slot_of (hold c) (cntr (w_nth x))) = Some r -> w_req x = r.
Proof.
  intros I Q E. destruct (un_wires t x Q) as [A B]. pose proof (cntr_pos (w_nth x) ltac:(lia)) as P. pose proof (ci_own _ _ I _ _ (Z.lt_le_incl _ _ P) E) as F.
  destruct (ci_fly _ _ I _ _ _ F) as (k & K & K1 & K2 & K3). pose proof (pos_eq _ _ K1 K2) as E2. apply cntr_inj in E2; [|lia|lia]. rewrite E2, Nat2Z.id, K in B. now injection B.
Qed.
Lemma PI_init : PI c_init [].
Proof. constructor; try easy. exact HP_init. Qed.
Lemma PI_same c t c' : PI c t -> (HP (hold c) (top c t) (opens c t) -> HP (hold c') (top c t) (opens c t)) -> pre c' = pre c -> reader c' = reader c -> open c' = open c -> flush c' = flush c ->
  (forall r w i, rs c' r = RFly w i -> rs c r = RFly w i) -> PI c' t.
Proof.
  intros [a b d e] H P R O F S. constructor; unfold top, opens in *; rewrite ?P, ?R, ?O, ?F.
  - now apply H.
  - intros r w i Q. apply S in Q. now apply (b r w i).
  - intro Q. destruct (d Q) as [D1 D2]. split; [exact D1|]. intros r w i Q2. apply D2 with (r := r). now apply S.
  - exact e.
Qed.
Lemma fake_complete c r o n : (forall w i, rs c r = RFly w i -> exists n, w = n / 256 /\ i = n mod 256) -> fake (slot_of (hold (complete c r o)) n) = fake (slot_of (hold c) n).
Proof. intro P. rewrite (slot_of_complete c r o n P). destruct (rs c r); try reflexivity. destruct (_ && _); reflexivity. Qed.
Lemma HP_complete c r o g O t : CI c t -> HP (hold c) g O -> HP (hold (complete c r o)) g O.
Proof.
  intros I H. apply (HP_ext _ _ _ _ H).
  - intro n. apply fake_complete. intros w i E. destruct (ci_fly _ _ I _ _ _ E) as (k & _ & -> & -> & _). now eexists.
  - intro B. unfold complete. cbn [hold]. destruct (rs c r); try reflexivity. apply freed_set.
  - unfold complete. cbn [hold]. destruct (rs c r); reflexivity.
  - unfold complete. cbn [hold]. destruct (rs c r); reflexivity.
  - unfold complete. cbn [hold]. destruct (rs c r); reflexivity.
  - unfold complete. cbn [hold]. destruct (rs c r); reflexivity.
Qed.
(** the observation of a completion does not change what is unanswered *)
Lemma PI_done c t r o : PI c t -> PI c (t ++ [ODone r o]).
Proof.
  intros [a b d e]. assert (NS : nsent (t ++ [ODone r o]) = nsent t) by (rewrite nsent_snoc; lia). assert (UN : unanswered (t ++ [ODone r o]) = unanswered t) by now rewrite unanswered_quiet.
  constructor; unfold top, opens in *; rewrite ?NS, ?UN; assumption.
Qed.
Lemma PI_complete c t r o : CI c t -> PI c t -> PI (complete c r o) (t ++ [ODone r o]).
Proof.
  intros I P. apply PI_done. apply (PI_same c t _ P); try reflexivity.
  - intro H. now apply (HP_complete c r o _ _ t).
  - intros r' w i E. cbn [complete rs] in E. rewrite updr_get in E. now destruct (Nat.eqb r' r).
Qed.
Lemma polite_step c t e o oc : CI c t -> PI c t -> never_next t -> step c e = (o, oc) -> polite (t ++ o) -> timely (t ++ o) ->
  exists c', oc = Some c' /\ never_next (t ++ o) /\ PI c' (t ++ o).
Proof.
  intros I P NN E PO TI. pose proof (timely_pre _ _ TI) as T0. pose proof (ci_U _ _ I) as HU. fold (top c t) in HU. pose proof (W_opens c t T0) as HW.
  assert (V : valid (top c t) \/ top c t = 0) by (apply cc_valid; pose proof (nsent_nn t); pose proof (has_nn (pre c)); lia).
  assert (SKIP : ([], Some c) = (o, oc) -> exists c', oc = Some c' /\ never_next (t ++ o) /\ PI c' (t ++ o)).
  { intro Q. injection Q as <- <-. exists c. rewrite app_nil_r. split; [reflexivity|split; assumption]. }
  assert (FIN : forall c', ([], Some c') = (o, oc) -> PI c' t -> exists c', oc = Some c' /\ never_next (t ++ o) /\ PI c' (t ++ o)).
  { intros c' Q H. injection Q as <- <-. exists c'. rewrite app_nil_r. split; [reflexivity|split; [exact NN|exact H]]. }
  assert (DONE : forall c1 r x, CI c1 t -> PI c1 t -> ([ODone r x], Some (complete c1 r x)) = (o, oc) -> exists c', oc = Some c' /\ never_next (t ++ o) /\ PI c' (t ++ o)).
  { intros c1 r x I1 P1 Q. injection Q as <- <-. eexists. split; [reflexivity|]. split; [apply never_next_snoc; [exact NN|discriminate]|]. now apply PI_complete. }
  pose proof P as [HHP PF PC PL]. destruct e as [|r|id code body| |r code| | |]; cbn [step] in E.
  - (* Prefetch *) destruct (pre c) as [s|] eqn:PR; [now apply SKIP|]. destruct (open c) eqn:OP; [|now apply SKIP].
    unfold top in *. rewrite PR in *. cbn [has] in *. rewrite Z.add_0_r in *. destruct (getNext_ok _ _ HU V) as (h' & E' & GN & V'). rewrite E' in E. eapply FIN; [exact E|].
    pose proof (nsent_nn t) as N0. constructor; cbn [hold pre reader rs open flush]; try assumption.
    + unfold top, opens. cbn [pre has hold]. rewrite cc_succ, <- nextc_cc by exact N0. unfold opens in HHP. rewrite PR, app_nil_r in HHP. apply (HP_next (hold c)); try assumption.
      rewrite nextc_cc, <- cc_succ by exact N0. apply (W_top c t _ T0). now right.
  - (* Send *) destruct (pre c) as [[w i]|] eqn:PR; [|now apply SKIP]. destruct (rs c r) eqn:R; try (now apply SKIP). destruct (open c) eqn:OP; [|now apply SKIP].
    destruct (ci_pre _ _ I _ _ PR) as (-> & -> & SP). injection E as <- <-. fold (slot_of (hold c) (cntr (nsent t))). rewrite SP. cbn [fake].
    eexists. split; [reflexivity|]. split; [apply never_next_snoc; [exact NN|discriminate]|].
    set (t' := t ++ [OWire (nth_id (nsent t)) r]). assert (NS : nsent t' = nsent t + 1) by apply nsent_snoc.
    assert (UN : unanswered t' = unanswered t ++ [mkWait (nth_id (nsent t)) r (nsent t)]) by apply unanswered_snoc.
    constructor; unfold top, opens in *; cbn [hold pre reader rs open flush]; rewrite ?NS, ?UN.
    + rewrite map_app. cbn [map w_nth has]. rewrite PR in HHP. cbn [has] in HHP. rewrite app_nil_r, Z.add_0_r. apply (HP_ext _ _ _ _ HHP); try reflexivity.
      * intro n. rewrite slot_set. destruct (Z.eqb_spec n (cntr (nsent t))) as [->|]; [|reflexivity]. now rewrite SP.
      * intro B. apply freed_set.
    + intros r' w i Q. rewrite updr_get in Q. destruct (Nat.eqb_spec r' r) as [->|N].
      * left. eexists. split; [apply in_or_app; right; now left|]. reflexivity.
      * destruct (PF _ _ _ Q) as [(x & X1 & X2)|Q2]; [left; exists x; split; [apply in_or_app; now left|exact X2]|now right].
    + intro Q. congruence.
    + intros w i Q. apply PL in Q. destruct Q as [Q _]. congruence.
  - (* Resp *) destruct (reader c) as [x|] eqn:RD; [now apply SKIP|]. destruct (open c && (0 <=? id) && (id <? 2 ^ 32)) eqn:G; [|now apply SKIP].
    assert (OP : open c = true) by (apply andb_true_iff in G; destruct G as [G _]; apply andb_true_iff in G; tauto).
    injection E as <- <-. destruct (polite_next c t id code body I T0 PO) as [NX IU].
    destruct (answer_perm _ _ IU) as (x & X1 & X2 & XP). set (n0 := cntr (w_nth x)).
    assert (ID : id = n0 mod 2 ^ 32) by (unfold n0; rewrite cntr_mod, <- (un_id c t x I X1); now symmetry).
    set (O' := map (fun w => cntr (w_nth w)) (answer (unanswered t) id) ++ match pre c with Some _ => [cntr (nsent t)] | None => [] end).
    assert (OP' : Permutation (opens c t) (n0 :: O')).
    { unfold opens, O'. rewrite app_comm_cons. apply Permutation_app_tail. change (n0 :: map (fun w => cntr (w_nth w)) (answer (unanswered t) id)) with (map (fun w => cntr (w_nth w)) (x :: answer (unanswered t) id)). now apply Permutation_map. }
    assert (HW' : W (top c t) (n0 :: O')) by (intros n Q; apply HW; apply (Permutation_in _ (Permutation_sym OP')); exact Q).
    destruct (HP_remove (hold c) (top c t) O' n0 HU V (HP_perm _ _ _ _ HHP OP') HW') as (h' & ER & RM & HH'). rewrite ID, ER.
    eexists. split; [reflexivity|]. rewrite <- ID. split; [apply never_next_snoc; [exact NN|intros i0 c0 b0 Q; injection Q as <- _ _; exact NX]|].
    set (t' := t ++ [OGot id code body]). assert (NS : nsent t' = nsent t) by (unfold t'; rewrite nsent_snoc; lia). assert (UN : unanswered t' = answer (unanswered t) id) by apply unanswered_snoc.
    constructor; unfold top, opens in *; cbn [hold pre reader rs open flush]; rewrite ?NS, ?UN.
    + exact HH'.
    + intros r w i Q. destruct (PF _ _ _ Q) as [(y & Y1 & Y2)|(c1 & b1 & Q2)]; [|discriminate].
      apply (Permutation_in _ XP) in Y1. destruct Y1 as [<-|Y1]; [|left; now exists y].
      right. exists code, body. destruct (un_fly c t x r w i I X1 Y2 Q) as (_ & _ & E2). unfold n0. now rewrite E2.
    + intro Q. congruence.
    + intros w i Q. apply PL in Q. destruct Q as [Q _]. congruence.
  - (* Deliver *) destruct (reader c) as [[[ir code] body]|] eqn:RD; [|now apply SKIP].
    set (c1 := mkConn (hold c) (pre c) None (rs c) (shut c) (open c) (flush c)) in *.
    assert (I1 : CI c1 t) by (apply (CI_same c t c1 I); try reflexivity; discriminate).
    assert (OP : open c = true) by (destruct (open c) eqn:OP; [reflexivity|]; destruct (PC eq_refl); congruence).
    assert (PC1 : open c1 = false -> reader c1 = None /\ forall r w i, rs c1 r = RFly w i -> In (w, i) (flush c1)) by (cbn [c1 open]; congruence).
    destruct ir as [r|].
    + assert (OTHER : forall c2 r', CI c2 t -> PI c2 t -> rs c1 r' = rs c r' -> True) by trivial. clear OTHER. cbn [c1 rs] in E. destruct (rs c r) as [|w i|] eqn:R.
      * eapply FIN; [exact E|]. constructor; try assumption. intros r' w i Q. cbn [c1 rs] in Q. destruct (PF _ _ _ Q) as [Q2|(c2 & b2 & Q2)]; [now left|]. injection Q2 as <- _ _. congruence.
      * injection E as <- <-. eexists. split; [reflexivity|]. split; [apply never_next_snoc; [exact NN|discriminate]|]. apply PI_done.
        constructor; cbn [complete pre reader open flush c1]; try assumption.
        -- apply (HP_complete c1 r (Answer code body) _ _ t I1). exact HHP.
        -- intros r' w' i' Q. cbn [complete rs c1] in Q. rewrite updr_get in Q. destruct (Nat.eqb_spec r' r); [discriminate|].
           destruct (PF _ _ _ Q) as [Q2|(c2 & b2 & Q2)]; [now left|]. injection Q2 as <- _ _. easy.
        -- congruence.
      * eapply FIN; [exact E|]. constructor; try assumption. intros r' w i Q. cbn [c1 rs] in Q. destruct (PF _ _ _ Q) as [Q2|(c2 & b2 & Q2)]; [now left|]. injection Q2 as <- _ _. congruence.
    + eapply FIN; [exact E|]. constructor; try assumption. intros r' w i Q. cbn [c1 rs] in Q. destruct (PF _ _ _ Q) as [Q2|(c2 & b2 & Q2)]; [now left|]. discriminate.
  - (* Local *) destruct (rs c r); try (now apply SKIP); now apply (DONE c r (Elsewhere code)).
  - (* Stop *) eapply FIN; [exact E|]. now apply (PI_same c t).
  - (* Close *) destruct (reader c) as [x|] eqn:RD; [now apply SKIP|]. destruct (open c) eqn:OP; [|now apply SKIP].
    destruct (getAll_ok _ _ _ HU HHP HW) as (l & EL & LI). rewrite EL in E. injection E as <- <-. eexists. split; [reflexivity|].
    split; [apply never_next_snoc; [exact NN|discriminate]|].
    assert (NS : nsent (t ++ [OClosed]) = nsent t) by (rewrite nsent_snoc; lia). assert (UN : unanswered (t ++ [OClosed]) = unanswered t) by now rewrite unanswered_quiet.
    constructor; unfold top, opens in *; cbn [hold pre reader rs open flush]; rewrite ?NS, ?UN; try assumption.
    + intros _. split; [reflexivity|]. intros r w i Q. apply LI. destruct (PF _ _ _ Q) as [(x & X1 & X2)|(c2 & b2 & Q2)]; [|discriminate].
      destruct (un_fly c t x r w i I X1 X2 Q) as (A & B & C). exists (cntr (w_nth x)). split; [apply in_or_app; left; apply in_map_iff; now exists x|split; [exact A|split; [exact B|congruence]]].
    + intros w i Q. split; [reflexivity|]. apply LI in Q. destruct Q as (n & N1 & N2 & N3 & N4). apply in_app_or in N1. destruct N1 as [N1|N1].
      * apply in_map_iff in N1. destruct N1 as (x & <- & X1). now exists x.
      * exfalso. destruct (pre c) as [[w' i']|] eqn:PR; [|easy]. destruct N1 as [<-|[]]. destruct (ci_pre _ _ I _ _ PR) as (_ & _ & SP). rewrite SP in N4. now apply N4.
  - (* Flush *) destruct (flush c) as [|[w i] l] eqn:FL; [now apply SKIP|].
    destruct (PL w i (or_introl eq_refl)) as (OP & x & X1 & X2 & X3). destruct (PC OP) as [RD CF]. set (c1 := with_flush c l) in *.
    assert (I1 : CI c1 t) by (apply (CI_same c t _ I); try reflexivity; now intros).
    assert (SL : slots (rows (hold c1) w) i = slot_of (hold c) (cntr (w_nth x))) by (unfold slot_of; now rewrite X2, X3). rewrite SL in E.
    assert (PL1 : forall w i, In (w, i) l -> open c1 = false /\ exists x, In x (unanswered t) /\ w = cntr (w_nth x) / 256 /\ i = cntr (w_nth x) mod 256) by (intros w' i' Q; apply PL; now right).
    assert (HEAD : forall r w' i', rs c r = RFly w' i' -> (w', i') = (w, i) -> own (slot_of (hold c) (cntr (w_nth x))) = Some r).
    { intros r w' i' Q Q2. injection Q2 as -> ->. destruct (ci_fly _ _ I _ _ _ Q) as (k & _ & K1 & K2 & K3). rewrite X2 in K1. rewrite X3 in K2. now rewrite (pos_eq _ _ K1 K2). }
    destruct (own (slot_of (hold c) (cntr (w_nth x)))) as [r|] eqn:OW.
    + pose proof (cntr_pos (w_nth x) ltac:(pose proof (un_wires t x X1); lia)) as CP. pose proof (ci_own _ _ I _ _ (Z.lt_le_incl _ _ CP) OW) as F. cbn [c1 with_flush rs] in E. rewrite F in E.
      injection E as <- <-. eexists. split; [reflexivity|]. split; [apply never_next_snoc; [exact NN|discriminate]|]. apply PI_done.
      constructor; cbn [complete pre reader open flush c1 with_flush]; try assumption.
      * apply (HP_complete c1 r _ _ _ t I1). exact HHP.
      * intros r' w' i' Q. cbn [complete rs c1 with_flush] in Q. rewrite updr_get in Q. destruct (Nat.eqb_spec r' r); [discriminate|]. now apply (PF r' w' i').
      * intros _. split; [exact RD|]. intros r' w' i' Q. cbn [complete rs c1 with_flush] in Q. rewrite updr_get in Q. destruct (Nat.eqb_spec r' r) as [|N]; [discriminate|].
        destruct (CF _ _ _ Q) as [Q2|Q2]; [|exact Q2]. symmetry in Q2. pose proof (HEAD _ _ _ Q Q2) as Q3. congruence.
    + eapply FIN; [exact E|]. constructor; cbn [c1 with_flush hold pre reader rs open flush]; try assumption.
      intros _. split; [exact RD|]. intros r' w' i' Q. destruct (CF _ _ _ Q) as [Q2|Q2]; [|exact Q2]. symmetry in Q2. now pose proof (HEAD _ _ _ Q Q2).
Qed.
