(** Invariants of the request table. The [c]-th candidate id ever looked at by getNext lives in row c / 256 of
    the heap, at index c mod 256, and has wire id c mod 2^32. *)
From Coq Require Import ZArith List Bool Arith Lia Permutation.
Import ListNotations.
From Verif Require Import HolderModel HolderSpec.
Open Scope Z_scope.

Definition valid (n : Z) : Prop := n mod 2 ^ 32 <> 0 /\ n mod 2 ^ 32 <> 2 ^ 32 - 1.
Definition slot_of (h : holder) (n : Z) : slot := slots (rows h (n / 256)) (n mod 256).

Record U (h : holder) (c : Z) : Prop := {
  u_c : 0 <= c;
  u_cur : curId h = c mod 2 ^ 32;
  u_row : cur h = c / 256;
  u_big : big h = (c / 256) mod 2 ^ 24;
  u_nrow : nrow h = c / 256 + 1;
  u_map : forall b B, In (b, B) (reqs h) -> b = B mod 2 ^ 24 /\ 0 <= B <= c / 256;
  u_last : lastBig h = last h mod 2 ^ 24 /\ 0 <= last h <= c / 256;
  u_fresh : forall n, c < n -> slot_of h n = mkSlot 0 None;
  u_fake : forall n, 0 <= n -> fake (slot_of h n) = 0 \/ fake (slot_of h n) = n mod 2 ^ 32 }.

Lemma shiftr8 x : Z.shiftr x 8 = x / 256. Proof. now rewrite Z.shiftr_div_pow2. Qed.
Lemma land255 x : Z.land x 255 = x mod 256. Proof. change 255 with (Z.ones 8). now rewrite Z.land_ones. Qed.
Lemma row_wrap c : (c mod 2 ^ 32) / 256 = (c / 256) mod 2 ^ 24.
Proof. rewrite (Z.mod_eq (c / 256)) by lia. rewrite Z.div_div by lia. change (256 * 2 ^ 24) with (2 ^ 32). rewrite Z.mod_eq by lia.
  replace (c - 2 ^ 32 * (c / 2 ^ 32)) with (c + (- (2 ^ 24 * (c / 2 ^ 32))) * 256) by lia. rewrite Z.div_add by lia. lia. Qed.
Lemma col_wrap c : (c mod 2 ^ 32) mod 256 = c mod 256.
Proof. rewrite (Z.mod_eq c (2 ^ 32)) by lia. replace (c - 2 ^ 32 * (c / 2 ^ 32)) with (c + (- (2 ^ 24 * (c / 2 ^ 32))) * 256) by lia. now rewrite Z.mod_add by lia. Qed.
Lemma u32_succ c : u32 (c mod 2 ^ 32 + 1) = (c + 1) mod 2 ^ 32.
Proof. unfold u32. now rewrite Zplus_mod_idemp_l. Qed.
Lemma split256 n : n = 256 * (n / 256) + n mod 256. Proof. apply Z.div_mod. lia. Qed.
Lemma col_rng n : 0 <= n mod 256 < 256. Proof. apply Z.mod_pos_bound. lia. Qed.
Lemma pos_eq n m : n / 256 = m / 256 -> n mod 256 = m mod 256 -> n = m.
Proof. intros A B. rewrite (split256 n), (split256 m). lia. Qed.
Lemma pos_mk B j : 0 <= j < 256 -> (256 * B + j) / 256 = B /\ (256 * B + j) mod 256 = j.
Proof. intro H. split; [rewrite Z.add_comm, Z.mul_comm, Z.div_add, Z.div_small by lia; lia|rewrite Z.add_comm, Z.mul_comm, Z.mod_add, Z.mod_small by lia; lia]. Qed.

(** slot updates *)
Lemma slot_set h n s m : slot_of (set_slot h (n / 256) (n mod 256) s) m = if m =? n then s else slot_of h m.
Proof.
  unfold slot_of, set_slot, upd. cbn [rows]. destruct (Z.eqb_spec m n) as [->|N]; [rewrite Z.eqb_refl; cbn [slots]; now rewrite Z.eqb_refl|].
  destruct (Z.eqb_spec (m / 256) (n / 256)) as [E|E]; [|reflexivity]. cbn [slots]. destruct (Z.eqb_spec (m mod 256) (n mod 256)) as [E2|E2].
  - elim N. now apply pos_eq.
  - now rewrite E.
Qed.
Lemma freed_set h w i s B : freed (rows (set_slot h w i s) B) = freed (rows h B).
Proof. unfold set_slot, upd. cbn [rows]. destruct (Z.eqb_spec B w) as [->|]; reflexivity. Qed.
Lemma U_set h c n s : U h c -> 0 <= n <= c -> (fake s = 0 \/ fake s = n mod 2 ^ 32) -> U (set_slot h (n / 256) (n mod 256) s) c.
Proof.
  intros [A B C D E F G H I] N S. constructor; cbn [set_slot curId cur big nrow reqs last lastBig]; try assumption.
  - intros m Hm. rewrite slot_set. destruct (Z.eqb_spec m n); [lia|]. now apply H.
  - intros m Hm. rewrite slot_set. destruct (Z.eqb_spec m n) as [->|]; [exact S|now apply I].
Qed.

(** ** getNext *)
(** one round of the loop, up to the test of the id *)
Definition adv (h : holder) : holder :=
  let id := u32 (curId h + 1) in
  let b := Z.shiftr id 8 in
  if negb (big h =? b) then
    mkHolder (got h) (put h) id (mset (reqs h) b (nrow h)) (nrow h) b (last h) (lastBig h) (upd (rows h) (nrow h) empty_row) (nrow h + 1)
  else mkHolder (got h) (put h) id (reqs h) (cur h) (big h) (last h) (lastBig h) (rows h) (nrow h).
Lemma next_loop_S fuel h : next_loop (Datatypes.S fuel) h =
  let h' := adv h in let id := u32 (curId h + 1) in
  if negb (id =? 0) && negb (id =? PingId) then
    let i := Z.land id 255 in
    if negb (fake (slots (rows h' (cur h')) i) =? 0) then next_loop fuel h'
    else Some (set_slot h' (cur h') i (mkSlot id (own (slots (rows h' (cur h')) i))), (cur h', i))
  else next_loop fuel h'.
Proof. reflexivity. Qed.

Lemma in_mdel m k b v : In (b, v) (mdel m k) <-> In (b, v) m /\ b <> k.
Proof. unfold mdel. rewrite filter_In. cbn [fst]. destruct (Z.eqb_spec b k); cbn; intuition congruence. Qed.
Lemma mget_in m k v : mget m k = Some v -> In (k, v) m.
Proof. induction m as [|[k' v'] m IH]; [discriminate|]. cbn [mget]. destruct (Z.eqb_spec k' k) as [->|]; [intro E; injection E as ->; now left|intro E; right; auto]. Qed.
Lemma mget_del m k q : mget (mdel m k) q = if q =? k then None else mget m q.
Proof.
  induction m as [|[a v] m IH]; cbn [mdel filter mget]; [now destruct (q =? k)|]. cbn [fst]. fold (mdel m k).
  destruct (Z.eqb_spec a k) as [E|N]; cbn [negb mget]; rewrite IH.
  - destruct (Z.eqb_spec q k); [reflexivity|]. destruct (Z.eqb_spec a q); [congruence|reflexivity].
  - destruct (Z.eqb_spec a q); [|reflexivity]. destruct (Z.eqb_spec q k); [congruence|reflexivity].
Qed.
Lemma mget_set m k v q : mget (mset m k v) q = if q =? k then Some v else mget m q.
Proof. unfold mset. cbn [mget]. rewrite mget_del, (Z.eqb_sym k q). now destruct (q =? k). Qed.
Lemma keys_del m k : NoDup (map fst m) -> NoDup (map fst (mdel m k)) /\ ~ In k (map fst (mdel m k)).
Proof.
  intro N. split.
  - induction m as [|[a v] m IH]; [constructor|]. cbn [mdel filter map fst] in *. apply NoDup_cons_iff in N. destruct N as [N1 N2].
    destruct (Z.eqb_spec a k); cbn [negb]; [now apply IH|]. cbn [map fst]. apply NoDup_cons_iff. split; [|now apply IH].
    intro Q. apply N1. apply in_map_iff in Q. destruct Q as ([a' v'] & <- & Q). apply in_mdel in Q. apply in_map_iff. exists (a', v'). tauto.
  - intro Q. apply in_map_iff in Q. destruct Q as ([a' v'] & E & Q). apply in_mdel in Q. cbn in E. tauto.
Qed.
Lemma keys_set m k v : NoDup (map fst m) -> NoDup (map fst (mset m k v)).
Proof. intro N. destruct (keys_del m k N). unfold mset. cbn [map fst]. now apply NoDup_cons_iff. Qed.
Lemma mget_nodup m k v : NoDup (map fst m) -> In (k, v) m -> mget m k = Some v.
Proof.
  induction m as [|[a w] m IH]; [easy|]. cbn [map fst mget]. intros N [E|I]; apply NoDup_cons_iff in N; destruct N as [N1 N2].
  - injection E as -> ->. now rewrite Z.eqb_refl.
  - destruct (Z.eqb_spec a k) as [->|]; [|now apply IH]. elim N1. apply in_map_iff. now exists (k, v).
Qed.

Lemma next_row c : 0 <= c -> (c / 256) mod 2 ^ 24 = ((c + 1) / 256) mod 2 ^ 24 -> (c + 1) / 256 = c / 256.
Proof.
  intros H E. pose proof (split256 c). pose proof (split256 (c + 1)). pose proof (col_rng c). pose proof (col_rng (c + 1)).
  assert (D : (c + 1) / 256 = c / 256 \/ (c + 1) / 256 = c / 256 + 1) by lia. destruct D as [D|D]; [exact D|].
  exfalso. rewrite D in E. set (q := c / 256) in *. pose proof (Z.mod_pos_bound q (2 ^ 24) ltac:(lia)). pose proof (Z.mod_pos_bound (q + 1) (2 ^ 24) ltac:(lia)).
  pose proof (Z.div_mod q (2 ^ 24) ltac:(lia)). pose proof (Z.div_mod (q + 1) (2 ^ 24) ltac:(lia)). lia.
Qed.
Lemma row_step c : 0 <= c -> (c + 1) / 256 = c / 256 \/ ((c + 1) / 256 = c / 256 + 1 /\ (c + 1) mod 256 = 0).
Proof. intro H. pose proof (split256 c). pose proof (split256 (c + 1)). pose proof (col_rng c). pose proof (col_rng (c + 1)). lia. Qed.
Lemma adv_ok h c : U h c ->
  U (adv h) (c + 1) /\ (forall m, slot_of (adv h) m = slot_of h m) /\ got (adv h) = got h /\ put (adv h) = put h /\
  last (adv h) = last h /\ lastBig (adv h) = lastBig h /\
  reqs (adv h) = (if (c + 1) / 256 =? c / 256 then reqs h else mset (reqs h) (((c + 1) / 256) mod 2 ^ 24) ((c + 1) / 256)) /\
  (forall B, freed (rows (adv h) B) = if ((c + 1) / 256 =? c / 256) || negb (B =? (c + 1) / 256) then freed (rows h B) else 0).
Proof.
  intros [A B C D E F G H I]. unfold adv. rewrite B, u32_succ, shiftr8, row_wrap, D.
  destruct (Z.eqb_spec ((c / 256) mod 2 ^ 24) (((c + 1) / 256) mod 2 ^ 24)) as [Q|Q]; cbn [negb].
  - apply next_row in Q; [|exact A]. rewrite Q, Z.eqb_refl. cbn [orb]. split; [|repeat split; reflexivity].
    constructor; cbn [curId cur big nrow reqs last lastBig]; rewrite ?Q; try assumption; try lia; try reflexivity.
    + intros n Hn. apply H. lia.
  - destruct (row_step c A) as [Q2|[Q2 Q3]]; [elim Q; now rewrite Q2|]. destruct (Z.eqb_spec ((c + 1) / 256) (c / 256)); [lia|]. rewrite E, <- Q2.
    assert (SL : forall m, slot_of (mkHolder (got h) (put h) ((c + 1) mod 2 ^ 32) (mset (reqs h) (((c + 1) / 256) mod 2 ^ 24) ((c + 1) / 256)) ((c + 1) / 256)
       (((c + 1) / 256) mod 2 ^ 24) (last h) (lastBig h) (upd (rows h) ((c + 1) / 256) empty_row) ((c + 1) / 256 + 1)) m = slot_of h m).
    { intro m. unfold slot_of. cbn [rows]. unfold upd. destruct (Z.eqb_spec (m / 256) ((c + 1) / 256)) as [M|M]; [|reflexivity].
      cbn [empty_row slots]. symmetry. apply (H m). pose proof (split256 m). pose proof (split256 c). pose proof (col_rng m). pose proof (col_rng c). lia. }
    split; [|split; [exact SL|repeat (split; [reflexivity|])]].
    + constructor; cbn [curId cur big nrow reqs last lastBig]; try reflexivity; try lia.
      * intros b B' Hin. unfold mset in Hin. destruct Hin as [Hin|Hin].
        -- injection Hin as <- <-. split; [reflexivity|]. lia.
        -- apply in_mdel in Hin. destruct Hin as [Hin _]. apply F in Hin. lia.
      * intros n' Hn. rewrite SL. apply H. lia.
      * intros n' Hn. rewrite SL. now apply I.
    + intro B'. cbn [rows orb]. unfold upd. destruct (Z.eqb_spec B' ((c + 1) / 256)); reflexivity.
Qed.

(** the next counter with a usable id *)
Definition nextc (c : Z) : Z := if c mod 2 ^ 32 =? 2 ^ 32 - 2 then c + 3 else c + 1.
Lemma mod_succ c : (c + 1) mod 2 ^ 32 = if c mod 2 ^ 32 =? 2 ^ 32 - 1 then 0 else c mod 2 ^ 32 + 1.
Proof.
  pose proof (Z.mod_pos_bound c (2 ^ 32) ltac:(lia)). rewrite <- Zplus_mod_idemp_l. destruct (Z.eqb_spec (c mod 2 ^ 32) (2 ^ 32 - 1)) as [->|]; [reflexivity|].
  apply Z.mod_small. lia.
Qed.
(** what changes when getNext goes from counter [c] to [c'] *)
Record got_next (h h' : holder) (c c' : Z) : Prop := {
  gn_U : U h' c';
  gn_slot : forall m, slot_of h' m = if m =? c' then mkSlot (c' mod 2 ^ 32) None else slot_of h m;
  gn_got : got h' = u64 (got h + 1); gn_put : put h' = put h; gn_last : last h' = last h; gn_lastBig : lastBig h' = lastBig h;
  gn_reqs : reqs h' = (if c' / 256 =? c / 256 then reqs h else mset (reqs h) ((c' / 256) mod 2 ^ 24) (c' / 256));
  gn_freed : forall B, freed (rows h' B) = if (c' / 256 =? c / 256) || negb (B =? c' / 256) then freed (rows h B) else 0 }.
Lemma getNext_ok h c : U h c -> valid c \/ c = 0 -> exists h', getNext h = Some (h', (nextc c / 256, nextc c mod 256)) /\ got_next h h' c (nextc c) /\ valid (nextc c).
Proof.
  intros Hu V. unfold getNext. set (h0 := mkHolder (u64 (got h + 1)) _ _ _ _ _ _ _ _ _).
  assert (U0 : U h0 c) by (destruct Hu; constructor; assumption).
  assert (S0 : forall m, slot_of h0 m = slot_of h m) by reflexivity. assert (F0 : forall B, freed (rows h0 B) = freed (rows h B)) by reflexivity.
  change 600%nat with (Datatypes.S (Datatypes.S (Datatypes.S 597))).
  assert (FIN : forall fuel h1 n, U h1 n -> valid (n + 1) -> next_loop (Datatypes.S fuel) h1 =
     Some (set_slot (adv h1) ((n + 1) / 256) ((n + 1) mod 256) (mkSlot ((n + 1) mod 2 ^ 32) None), ((n + 1) / 256, (n + 1) mod 256))).
  { intros fuel h1 n U1 [V1 V2]. rewrite next_loop_S. cbv zeta. destruct (adv_ok h1 n U1) as (UA & SA & _). rewrite (u_cur _ _ U1), u32_succ.
    destruct (Z.eqb_spec ((n + 1) mod 2 ^ 32) 0); [easy|]. destruct (Z.eqb_spec ((n + 1) mod 2 ^ 32) PingId); [easy|]. cbn [negb andb].
    rewrite land255, col_wrap, (u_row _ _ UA). fold (slot_of (adv h1) (n + 1)). rewrite SA, (u_fresh _ _ U1) by lia. reflexivity. }
  assert (SKIP : forall fuel h1 n, U h1 n -> ~ valid (n + 1) -> next_loop (Datatypes.S fuel) h1 = next_loop fuel (adv h1)).
  { intros fuel h1 n U1 NV. rewrite next_loop_S. cbv zeta. rewrite (u_cur _ _ U1), u32_succ. unfold valid, PingId in *.
    destruct (Z.eqb_spec ((n + 1) mod 2 ^ 32) 0); [reflexivity|]. destruct (Z.eqb_spec ((n + 1) mod 2 ^ 32) (2 ^ 32 - 1)); [reflexivity|]. elim NV. now split. }
  pose proof (adv_ok h0 c U0) as (U1 & S1 & G1 & P1 & L1 & B1 & R1 & Fr1).
  assert (NN : 0 <= c) by apply Hu.
  assert (FINU : forall h1 n, U h1 (n + 1) -> (forall m, slot_of h1 m = slot_of h m) -> U (set_slot h1 ((n + 1) / 256) ((n + 1) mod 256) (mkSlot ((n + 1) mod 2 ^ 32) None)) (n + 1) /\
     forall m, slot_of (set_slot h1 ((n + 1) / 256) ((n + 1) mod 256) (mkSlot ((n + 1) mod 2 ^ 32) None)) m = if m =? n + 1 then mkSlot ((n + 1) mod 2 ^ 32) None else slot_of h m).
  { intros h1 n Un Sn. split; [apply U_set; [exact Un|pose proof (u_c _ _ Un); lia|now right]|]. intro m. rewrite slot_set, Sn. reflexivity. }
  unfold nextc. destruct (Z.eqb_spec (c mod 2 ^ 32) (2 ^ 32 - 2)) as [W|W].
  - assert (M1 : (c + 1) mod 2 ^ 32 = 2 ^ 32 - 1) by (rewrite mod_succ, W; reflexivity).
    assert (M2 : (c + 1 + 1) mod 2 ^ 32 = 0) by (rewrite mod_succ, M1; reflexivity).
    assert (M3 : (c + 1 + 1 + 1) mod 2 ^ 32 = 1) by (rewrite mod_succ, M2; reflexivity).
    assert (V3 : valid (c + 1 + 1 + 1)) by (unfold valid; rewrite M3; lia).
    pose proof (adv_ok _ _ U1) as (U2 & S2 & G2 & P2 & L2 & B2 & R2 & Fr2). pose proof (adv_ok _ _ U2) as (U3 & S3 & G3 & P3 & L3 & B3 & R3 & Fr3).
    assert (D : c mod 256 = 254) by (rewrite <- col_wrap, W; reflexivity).
    assert (D1 : (c + 1) / 256 = c / 256 /\ (c + 1 + 1) / 256 = c / 256 + 1 /\ (c + 1 + 1 + 1) / 256 = c / 256 + 1).
    { pose proof (split256 c). pose proof (split256 (c + 1)). pose proof (split256 (c + 1 + 1)). pose proof (split256 (c + 1 + 1 + 1)).
      pose proof (col_rng (c + 1)). pose proof (col_rng (c + 1 + 1)). pose proof (col_rng (c + 1 + 1 + 1)). lia. }
    destruct D1 as (D1 & D2 & D3). replace (c + 3) with (c + 1 + 1 + 1) by lia. eexists. split.
    { rewrite (SKIP _ _ _ U0), (SKIP _ _ _ U1), (FIN _ _ _ U2 V3); [reflexivity|unfold valid; rewrite M2; lia|unfold valid; rewrite M1; lia]. }
    destruct (FINU _ _ U3) as [FU FS]; [intro m; rewrite S3, S2, S1; apply S0|]. split; [|exact V3]. constructor; [exact FU|exact FS|..]; cbn [set_slot got put last lastBig reqs].
    + now rewrite G3, G2, G1. + now rewrite P3, P2, P1. + now rewrite L3, L2, L1. + now rewrite B3, B2, B1.
    + rewrite R3, R2, R1, D1, D2, D3, !Z.eqb_refl. destruct (Z.eqb_spec (c / 256 + 1) (c / 256)); [lia|reflexivity].
    + intro B. rewrite freed_set, Fr3, Fr2, Fr1, D1, D2, D3, !Z.eqb_refl. cbn [orb]. rewrite F0. reflexivity.
  - assert (V1 : valid (c + 1)).
    { unfold valid. rewrite mod_succ. destruct V as [[V1 V2]| ->]; [|cbn; lia]. pose proof (Z.mod_pos_bound c (2 ^ 32) ltac:(lia)). destruct (Z.eqb_spec (c mod 2 ^ 32) (2 ^ 32 - 1)); lia. }
    eexists. split; [apply (FIN _ _ _ U0 V1)|]. destruct (FINU _ _ U1) as [FU FS]; [intro m; rewrite S1; apply S0|].
    split; [|exact V1]. constructor; [exact FU|exact FS|..]; cbn [set_slot got put last lastBig reqs]; try assumption.
    intro B. rewrite freed_set, Fr1. reflexivity.
Qed.

(** ** remove *)
Definition find_row (h : holder) (b : Z) : option Z := if negb (lastBig h =? b) then mget (reqs h) b else Some (last h).
Definition row_done (fr b : Z) : bool := (fr =? 256) || ((fr =? 255) && ((b =? 0) || (b =? 2 ^ 24 - 1))).
Record removed (h h' : holder) (c n : Z) : Prop := {
  rm_U : U h' c;
  rm_slot : forall m, slot_of h' m = if m =? n then mkSlot 0 (own (slot_of h n)) else slot_of h m;
  rm_got : got h' = got h; rm_put : put h' = u64 (put h + 1);
  rm_last : last h' = n / 256;
  rm_reqs : reqs h' = if row_done (u32 (freed (rows h (n / 256)) + 1)) ((n / 256) mod 2 ^ 24) then mdel (reqs h) ((n / 256) mod 2 ^ 24) else reqs h;
  rm_freed : forall B, freed (rows h' B) = if B =? n / 256 then u32 (freed (rows h B) + 1) else freed (rows h B) }.
Lemma remove_ok h c id : U h c -> 0 <= id < 2 ^ 32 -> forall B, find_row h (id / 256) = Some B ->
  exists h' n, remove h id = Some (h', own (slot_of h n)) /\ 0 <= n /\ n / 256 = B /\ B <= c / 256 /\ n mod 2 ^ 32 = id /\ removed h h' c n.
Proof.
  intros Hu Hid B FB.
  assert (RB : id / 256 = B mod 2 ^ 24 /\ 0 <= B <= c / 256).
  { unfold find_row in FB. destruct (Z.eqb_spec (lastBig h) (id / 256)) as [E|E]; cbn [negb] in FB.
    - injection FB as <-. rewrite <- E. apply (u_last _ _ Hu).
    - apply mget_in in FB. now apply (u_map _ _ Hu). }
  destruct RB as [R1 R2]. set (n := 256 * B + id mod 256). destruct (pos_mk B (id mod 256) (col_rng id)) as [N1 N2]. fold n in N1, N2.
  assert (N3 : n mod 2 ^ 32 = id).
  { unfold n. rewrite (split256 id), R1. pose proof (col_rng id). rewrite (Z.mod_eq B (2 ^ 24)) by lia.
    replace (256 * B + (256 * (B - 2 ^ 24 * (B / 2 ^ 24)) + id mod 256) mod 256) with ((256 * (B - 2 ^ 24 * (B / 2 ^ 24)) + id mod 256) + (B / 2 ^ 24) * 2 ^ 32).
    2:{ destruct (pos_mk (B - 2 ^ 24 * (B / 2 ^ 24)) (id mod 256) (col_rng id)) as [_ ->]. lia. }
    rewrite Z.mod_add by lia. rewrite Z.mod_small; [reflexivity|]. pose proof (Z.mod_pos_bound B (2 ^ 24) ltac:(lia)). rewrite (Z.mod_eq B) in H0 by lia. lia. }
  assert (NN : 0 <= n) by (unfold n; pose proof (col_rng id); lia).
  unfold remove. rewrite shiftr8. fold (find_row h (id / 256)). rewrite FB, land255.
  eexists _, n. split; [f_equal; f_equal; unfold slot_of; rewrite N1, N2; reflexivity|]. split; [exact NN|split; [exact N1|split; [lia|split; [exact N3|]]]].
  assert (SL : forall m, slot_of (mkHolder (got h) (u64 (put h + 1)) (curId h)
     (if (u32 (freed (rows h B) + 1) =? 256) || (u32 (freed (rows h B) + 1) =? 255) && ((id / 256 =? 0) || (id / 256 =? Z.shiftr PingId 8)) then mdel (reqs h) (id / 256) else reqs h)
     (cur h) (big h) B (id / 256)
     (upd (rows h) B (mkRow (u32 (freed (rows h B) + 1)) (upd (slots (rows h B)) (id mod 256) (mkSlot 0 (own (slots (rows h B) (id mod 256))))))) (nrow h)) m =
     if m =? n then mkSlot 0 (own (slot_of h n)) else slot_of h m).
  { intro m. unfold slot_of. cbn [rows]. unfold upd. rewrite N1, N2. destruct (Z.eqb_spec m n) as [->|M].
    - rewrite N1, Z.eqb_refl. cbn [slots]. now rewrite N2, Z.eqb_refl.
    - destruct (Z.eqb_spec (m / 256) B) as [E|E]; [|reflexivity]. cbn [slots]. destruct (Z.eqb_spec (m mod 256) (id mod 256)) as [E2|E2].
      + elim M. apply pos_eq; congruence.
      + now rewrite E. }
  constructor; cbn [got put last reqs rows]; try exact SL; try reflexivity; try (now rewrite N1).
  - destruct Hu as [u1 u2 u3 u4 u5 u6 u7 u8 u9]. constructor; cbn [curId cur big nrow reqs last lastBig]; try assumption.
    + intros b B' Hin. apply u6. destruct (_ || _) in Hin; [apply in_mdel in Hin; tauto|exact Hin].
    + now split.
    + intros m Hm. rewrite SL. destruct (Z.eqb_spec m n) as [->|]; rewrite u8 by lia; reflexivity.
    + intros m Hm. rewrite SL. destruct (Z.eqb_spec m n) as [->|]; [now left|now apply u9].
  - rewrite N1, <- R1. reflexivity.
  - intro B'. unfold upd. rewrite N1. destruct (Z.eqb_spec B' B) as [->|]; reflexivity.
Qed.
Lemma remove_inv h id h' ir : remove h id = Some (h', ir) -> exists B, find_row h (id / 256) = Some B.
Proof. unfold remove. rewrite shiftr8. fold (find_row h (id / 256)). destruct (find_row h (id / 256)) as [B|]; [now exists B|discriminate]. Qed.
Lemma remove_crash h id : remove h id = None <-> find_row h (id / 256) = None.
Proof. unfold remove. rewrite shiftr8. fold (find_row h (id / 256)). destruct (find_row h (id / 256)); split; easy. Qed.

(** ** Counters of the frames *)
Definition cntr (k : Z) : Z := 2 ^ 32 * (k / (2 ^ 32 - 2)) + 1 + k mod (2 ^ 32 - 2).
Definition cc (g : Z) : Z := if g =? 0 then 0 else cntr (g - 1).
Lemma nth_id_rng k : 1 <= nth_id k <= 2 ^ 32 - 2.
Proof. unfold nth_id. pose proof (Z.mod_pos_bound k (2 ^ 32 - 2) ltac:(lia)). lia. Qed.
Lemma cntr_mod k : cntr k mod 2 ^ 32 = nth_id k.
Proof.
  unfold cntr. replace (2 ^ 32 * (k / (2 ^ 32 - 2)) + 1 + k mod (2 ^ 32 - 2)) with (nth_id k + (k / (2 ^ 32 - 2)) * 2 ^ 32) by (unfold nth_id; lia).
  rewrite Z.mod_add by lia. apply Z.mod_small. pose proof (nth_id_rng k). lia.
Qed.
Lemma cntr_valid k : valid (cntr k).
Proof. unfold valid. rewrite cntr_mod. pose proof (nth_id_rng k). lia. Qed.
Lemma cntr_pos k : 0 <= k -> 0 < cntr k.
Proof. intro H. unfold cntr. pose proof (Z.mod_pos_bound k (2 ^ 32 - 2) ltac:(lia)). pose proof (Z.div_pos k (2 ^ 32 - 2) H ltac:(lia)). lia. Qed.
Lemma cntr_diff k k' : 0 <= k <= k' -> k' - k < 2 ^ 32 - 2 -> k' - k <= cntr k' - cntr k <= k' - k + 2.
Proof.
  intros H W. unfold cntr. pose proof (Z.mod_pos_bound k (2 ^ 32 - 2) ltac:(lia)). pose proof (Z.mod_pos_bound k' (2 ^ 32 - 2) ltac:(lia)).
  pose proof (Z.div_mod k (2 ^ 32 - 2) ltac:(lia)). pose proof (Z.div_mod k' (2 ^ 32 - 2) ltac:(lia)). lia.
Qed.
Lemma cntr_mono k k' : 0 <= k < k' -> cntr k < cntr k'.
Proof.
  intros H. unfold cntr. pose proof (Z.mod_pos_bound k (2 ^ 32 - 2) ltac:(lia)). pose proof (Z.mod_pos_bound k' (2 ^ 32 - 2) ltac:(lia)).
  pose proof (Z.div_mod k (2 ^ 32 - 2) ltac:(lia)). pose proof (Z.div_mod k' (2 ^ 32 - 2) ltac:(lia)). pose proof (Z.div_le_mono k k' (2 ^ 32 - 2) ltac:(lia) ltac:(lia)). nia.
Qed.
Lemma cntr_inj k k' : 0 <= k -> 0 <= k' -> cntr k = cntr k' -> k = k'.
Proof. intros H H' E. destruct (Z.lt_trichotomy k k') as [L|[L|L]]; [pose proof (cntr_mono k k')|exact L|pose proof (cntr_mono k' k)]; lia. Qed.
Lemma nextc_cntr k : 0 <= k -> nextc (cntr k) = cntr (k + 1).
Proof.
  intro H. unfold nextc. rewrite cntr_mod. unfold cntr, nth_id. pose proof (Z.mod_pos_bound k (2 ^ 32 - 2) ltac:(lia)).
  pose proof (Z.div_mod k (2 ^ 32 - 2) ltac:(lia)). pose proof (Z.mod_pos_bound (k + 1) (2 ^ 32 - 2) ltac:(lia)). pose proof (Z.div_mod (k + 1) (2 ^ 32 - 2) ltac:(lia)).
  destruct (Z.eqb_spec (1 + k mod (2 ^ 32 - 2)) (2 ^ 32 - 2)) as [E|E].
  - assert (Q : (k + 1) / (2 ^ 32 - 2) = k / (2 ^ 32 - 2) + 1) by lia. rewrite Q in *. lia.
  - assert (Q : (k + 1) / (2 ^ 32 - 2) = k / (2 ^ 32 - 2)) by lia. rewrite Q in *. lia.
Qed.
Lemma nextc_cc g : 0 <= g -> nextc (cc g) = cntr g.
Proof. intro H. unfold cc. destruct (Z.eqb_spec g 0) as [->|N]; [reflexivity|]. rewrite nextc_cntr by lia. f_equal. lia. Qed.
Lemma cc_succ g : 0 <= g -> cc (g + 1) = cntr g.
Proof. intro H. unfold cc. destruct (Z.eqb_spec (g + 1) 0); [lia|]. f_equal. lia. Qed.
Lemma cc_valid g : 0 <= g -> valid (cc g) \/ cc g = 0.
Proof. intro H. unfold cc. destruct (Z.eqb_spec g 0); [now right|left; apply cntr_valid]. Qed.
Lemma cntr_onto n : 0 <= n -> valid n -> exists k, 0 <= k /\ n = cntr k.
Proof.
  intros H [V1 V2]. pose proof (Z.mod_pos_bound n (2 ^ 32) ltac:(lia)) as R. pose proof (Z.div_mod n (2 ^ 32) ltac:(lia)) as D. pose proof (Z.div_pos n (2 ^ 32) H ltac:(lia)) as P.
  set (q := n / 2 ^ 32) in *. set (r := n mod 2 ^ 32) in *. exists ((2 ^ 32 - 2) * q + (r - 1)). split; [lia|]. unfold cntr.
  rewrite <- (Z.div_unique ((2 ^ 32 - 2) * q + (r - 1)) (2 ^ 32 - 2) q (r - 1)), <- (Z.mod_unique ((2 ^ 32 - 2) * q + (r - 1)) (2 ^ 32 - 2) q (r - 1)); lia.
Qed.

(** ** Traces *)
Inductive reach : conn -> list obs -> Prop :=
| reach0 : reach c_init []
| reachS c t e o c' : reach c t -> step c e = (o, Some c') -> reach c' (t ++ o).
Lemma run_reach_gen es : forall c t, reach c t -> forall o c', run c es = (o, Some c') -> reach c' (t ++ o).
Proof.
  induction es as [|e es IH]; intros c t R o c' E; cbn [run] in E.
  - injection E as <- <-. now rewrite app_nil_r.
  - destruct (step c e) as [o1 [c1|]] eqn:S; [|discriminate]. destruct (run c1 es) as [o2 c2] eqn:Q. injection E as <- ->.
    rewrite app_assoc. eapply IH; [eapply reachS; eassumption|exact Q].
Qed.
Lemma run_reach es t c : run c_init es = (t, Some c) -> reach c t.
Proof. apply (run_reach_gen es c_init []). constructor. Qed.
Lemma run_crash_gen es : forall c t, reach c t -> forall o, run c es = (o, None) -> exists c1 t1 e o1, reach c1 t1 /\ step c1 e = (o1, None) /\ t ++ o = t1 ++ o1.
Proof.
  induction es as [|e es IH]; intros c t R o E; cbn [run] in E; [discriminate|].
  destruct (step c e) as [o1 [c1|]] eqn:S.
  - destruct (run c1 es) as [o2 c2] eqn:Q. injection E as <- ->. rewrite app_assoc. eapply IH; [eapply reachS; eassumption|exact Q].
  - injection E as <-. now exists c, t, e, o1.
Qed.
Lemma run_crash es t : run c_init es = (t, None) -> exists c1 t1 e o1, reach c1 t1 /\ step c1 e = (o1, None) /\ t = t1 ++ o1.
Proof. apply (run_crash_gen es c_init []). constructor. Qed.

Lemma wires_app t o : wires (t ++ o) = wires t ++ wires o. Proof. apply flat_map_app. Qed.
Lemma dones_app t o : dones (t ++ o) = dones t ++ dones o. Proof. apply flat_map_app. Qed.
Lemma tracked_snoc t o : tracked (t ++ [o]) = track (tracked t) o.
Proof. unfold tracked. now rewrite fold_left_app. Qed.
Lemma nsent_wires t : nsent t = Z.of_nat (length (wires t)).
Proof.
  induction t as [|o t IH] using rev_ind; [reflexivity|]. unfold nsent in *. rewrite tracked_snoc, wires_app, app_length.
  destruct o; cbn [track fst snd wires flat_map app length]; rewrite ?IH; lia.
Qed.
Lemma nsent_app t o : nsent (t ++ o) = nsent t + nsent o.
Proof. rewrite !nsent_wires, wires_app, app_length. lia. Qed.
Lemma nsent_nn t : 0 <= nsent t. Proof. rewrite nsent_wires. lia. Qed.

(** no answer carries the id which the next frame is going to have *)
Definition never_next (t : list obs) : Prop := forall p i code body q, t = p ++ OGot i code body :: q -> i <> nth_id (nsent p).
Lemma never_next_pre t o : never_next (t ++ o) -> never_next t.
Proof. intros H p i code body q ->. apply (H p i code body (q ++ o)). now rewrite <- app_assoc. Qed.
Lemma polite_pre t o : polite (t ++ o) -> polite t.
Proof. intros H p i code body q ->. apply (H p i code body (q ++ o)). now rewrite <- app_assoc. Qed.
Lemma timely_pre t o : timely (t ++ o) -> timely t.
Proof. intros H p i r q ->. apply (H p i r (q ++ o)). now rewrite <- app_assoc. Qed.

(** ** The connection, whatever the peer does *)
Definition has {A} (o : option A) : Z := match o with Some _ => 1 | None => 0 end.
Record CI (c : conn) (t : list obs) : Prop := {
  ci_U : U (hold c) (cc (nsent t + has (pre c)));
  ci_pre : forall w i, pre c = Some (w, i) ->
    w = cntr (nsent t) / 256 /\ i = cntr (nsent t) mod 256 /\ slot_of (hold c) (cntr (nsent t)) = mkSlot (nth_id (nsent t)) None;
  ci_ids : forall k x, nth_error (wires t) k = Some x -> fst x = nth_id (Z.of_nat k);
  ci_own : forall n r, 0 <= n -> own (slot_of (hold c) n) = Some r -> rs c r = RFly (n / 256) (n mod 256);
  ci_fly : forall r w i, rs c r = RFly w i -> exists k, nth_error (wires t) k = Some (nth_id (Z.of_nat k), r) /\
    w = cntr (Z.of_nat k) / 256 /\ i = cntr (Z.of_nat k) mod 256 /\ own (slot_of (hold c) (cntr (Z.of_nat k))) = Some r;
  ci_sent : forall r, In r (map snd (wires t)) -> rs c r <> RNew;
  ci_once : NoDup (map snd (wires t));
  ci_done : forall r o, rs c r = RDone o <-> In (r, o) (dones t);
  ci_dones : NoDup (map fst (dones t));
  ci_read : forall r code body, reader c = Some (Some r, code, body) -> exists id p q,
    In (id, r) (wires p) /\ t = p ++ OGot id code body :: q /\ (forall i b d, ~ In (OGot i b d) q) }.
Lemma U_init : U h_init 0.
Proof.
  constructor; try reflexivity; try (cbn; lia).
  - intros b B [E|[]]. injection E as <- <-. now split.
Qed.
Lemma CI_init : CI c_init [].
Proof.
  constructor; try (now constructor); try easy.
  - exact U_init.
  - intros k x E. destruct k; discriminate.
Qed.
Lemma updr_get {A} (f : rid -> A) k v i : updr f k v i = if Nat.eqb i k then v else f i. Proof. reflexivity. Qed.
Lemma nth_wires_fly t k k' r a b : NoDup (map snd (wires t)) -> nth_error (wires t) k = Some (a, r) -> nth_error (wires t) k' = Some (b, r) -> k = k'.
Proof.
  intros N E E'. assert (L : forall j x, nth_error (wires t) j = Some (x, r) -> nth_error (map snd (wires t)) j = Some r).
  { intros j x H. now rewrite nth_error_map, H. }
  apply (proj1 (NoDup_nth_error _) N); [|now rewrite (L _ _ E), (L _ _ E')]. apply nth_error_Some. now rewrite (L _ _ E).
Qed.
(** transfer along an observation that is no frame *)
Lemma quiet_nsent t o : wires o = [] -> nsent (t ++ o) = nsent t.
Proof. intro E. rewrite !nsent_wires, wires_app, E, app_nil_r. reflexivity. Qed.
Lemma read_more (t : list obs) r code body o : (forall i b d, ~ In (OGot i b d) o) ->
  (exists id p q, In (id, r) (wires p) /\ t = p ++ OGot id code body :: q /\ (forall i b d, ~ In (OGot i b d) q)) ->
  exists id p q, In (id, r) (wires p) /\ t ++ o = p ++ OGot id code body :: q /\ (forall i b d, ~ In (OGot i b d) q).
Proof.
  intros N (id & p & q & I & -> & H). exists id, p, (q ++ o). split; [exact I|].
  split; [now rewrite <- app_assoc|]. intros i b d Q. apply in_app_or in Q. destruct Q as [Q|Q]; [exact (H _ _ _ Q)|exact (N _ _ _ Q)].
Qed.
Lemma slot_of_complete c r o m : (forall w i, rs c r = RFly w i -> exists n, w = n / 256 /\ i = n mod 256) ->
  slot_of (hold (complete c r o)) m =
  match rs c r with RFly w i => if (m / 256 =? w) && (m mod 256 =? i) then mkSlot (fake (slot_of (hold c) m)) None else slot_of (hold c) m | _ => slot_of (hold c) m end.
Proof.
  intro P. unfold complete. cbn [hold]. destruct (rs c r) as [|w i|] eqn:E; try reflexivity. destruct (P _ _ eq_refl) as (n & -> & ->).
  rewrite slot_set. fold (slot_of (hold c) n). destruct (Z.eqb_spec m n) as [->|N]; [now rewrite !Z.eqb_refl|].
  destruct (Z.eqb_spec (m / 256) (n / 256)); [|reflexivity]. destruct (Z.eqb_spec (m mod 256) (n mod 256)); [|reflexivity]. elim N. now apply pos_eq.
Qed.
Lemma U_complete c r o g : U (hold c) g -> (forall w i, rs c r = RFly w i -> exists n, w = n / 256 /\ i = n mod 256 /\ 0 <= n <= g) -> U (hold (complete c r o)) g.
Proof.
  intros Hu P. unfold complete. cbn [hold]. destruct (rs c r) as [|w i|] eqn:E; try exact Hu. destruct (P _ _ eq_refl) as (n & -> & -> & Hn).
  apply U_set; [exact Hu|exact Hn|]. cbn [fake]. apply (u_fake _ _ Hu). lia.
Qed.
Lemma cntr_le_cc k g : 0 <= k < g -> cntr k <= cc g.
Proof. intro H. unfold cc. destruct (Z.eqb_spec g 0); [lia|]. destruct (Z.eq_dec k (g - 1)) as [->|]; [lia|]. pose proof (cntr_mono k (g - 1)). lia. Qed.
Lemma has_nn {A} (o : option A) : 0 <= has o <= 1. Proof. destruct o; cbn; lia. Qed.
Lemma nth_lt {A} (l : list A) k x : nth_error l k = Some x -> (k < length l)%nat.
Proof. intro E. apply nth_error_Some. now rewrite E. Qed.
Lemma CI_complete c t r o : CI c t -> (forall x, rs c r <> RDone x) -> CI (complete c r o) (t ++ [ODone r o]).
Proof.
  intros I ND. pose proof I as [i1 i2 i3 i4 i5 i6 i7 i8 i9 i10].
  assert (NS : nsent (t ++ [ODone r o]) = nsent t) by (apply quiet_nsent; reflexivity).
  assert (WS : wires (t ++ [ODone r o]) = wires t) by (rewrite wires_app; apply app_nil_r).
  assert (DS : dones (t ++ [ODone r o]) = dones t ++ [(r, o)]) by apply dones_app.
  assert (PP : forall w i, rs c r = RFly w i -> exists n, w = n / 256 /\ i = n mod 256).
  { intros w i E. destruct (i5 _ _ _ E) as (k & _ & -> & -> & _). now eexists. }
  assert (SL := fun m => slot_of_complete c r o m PP).
  assert (NR : ~ In r (map fst (dones t))). { intro Q. apply in_map_iff in Q. destruct Q as ([r' x] & E & Q). cbn in E. subst r'. apply i8 in Q. exact (ND _ Q). }
  constructor; rewrite ?NS, ?WS, ?DS.
  - apply U_complete; [exact i1|]. intros w i E. destruct (i5 _ _ _ E) as (k & K & -> & -> & _). eexists. split; [reflexivity|split; [reflexivity|]].
    apply nth_lt in K. rewrite nsent_wires. pose proof (cntr_pos (Z.of_nat k)). pose proof (has_nn (pre c)). split; [lia|apply cntr_le_cc; cbn [complete pre]; lia].
  - intros w i E. cbn [complete pre] in E. destruct (i2 _ _ E) as (A & B & C). split; [exact A|split; [exact B|]]. rewrite SL.
    destruct (rs c r) as [|w' i'|] eqn:R; try exact C. destruct (i5 _ _ _ R) as (k & K & -> & -> & K2). destruct ((_ =? _) && (_ =? _)) eqn:Q; [|exact C].
    apply andb_true_iff in Q. destruct Q as [Q1%Z.eqb_eq Q2%Z.eqb_eq]. pose proof (pos_eq _ _ Q1 Q2) as Q. rewrite Q in C. rewrite C in K2. discriminate.
  - exact i3.
  - intros n r' Hn E. cbn [complete rs]. rewrite updr_get. rewrite SL in E. destruct (Nat.eqb_spec r' r) as [->|N].
    + exfalso. destruct (rs c r) as [|w i|] eqn:R.
      * apply i4 in E; congruence.
      * destruct ((_ =? _) && (_ =? _)) eqn:Q; [discriminate|]. apply i4 in E; [|exact Hn]. rewrite E in R. injection R as <- <-. rewrite !Z.eqb_refl in Q. discriminate.
      * now apply (ND o0).
    + apply i4; [exact Hn|]. destruct (rs c r) as [|w i|] eqn:R; try exact E. destruct ((_ =? _) && (_ =? _)) eqn:Q; [discriminate|exact E].
  - intros r' w i E. cbn [complete rs] in E. rewrite updr_get in E. destruct (Nat.eqb_spec r' r) as [->|N]; [discriminate|].
    destruct (i5 _ _ _ E) as (k & K & K1 & K2 & K3). exists k. split; [exact K|split; [exact K1|split; [exact K2|]]]. rewrite SL.
    destruct (rs c r) as [|w' i'|] eqn:R; try exact K3. destruct (i5 _ _ _ R) as (k' & K' & -> & -> & K3'). destruct ((_ =? _) && (_ =? _)) eqn:Q; [|exact K3].
    apply andb_true_iff in Q. destruct Q as [Q1%Z.eqb_eq Q2%Z.eqb_eq]. pose proof (pos_eq _ _ Q1 Q2) as Q. rewrite Q in K3. congruence.
  - intros r' Q. cbn [complete rs]. rewrite updr_get. destruct (Nat.eqb_spec r' r); [discriminate|now apply i6].
  - exact i7.
  - intros r' x. cbn [complete rs]. rewrite updr_get. destruct (Nat.eqb_spec r' r) as [->|N].
    + split; [intro E; injection E as <-; apply in_or_app; right; now left|]. intro Q. apply in_app_or in Q. destruct Q as [Q|[Q|[]]].
      * elim NR. apply in_map_iff. now exists (r, x).
      * now injection Q as ->.
    + rewrite i8. split; intro Q; [apply in_or_app; now left|]. apply in_app_or in Q. destruct Q as [Q|[Q|[]]]; [exact Q|congruence].
  - rewrite map_app. cbn [map fst]. apply (Permutation_NoDup (Permutation_cons_append _ r)). now constructor.
  - intros r' code body E. cbn [complete reader] in E. apply (read_more t r' code body [ODone r o]) in i10 as J; [|intros i b d [Q|[]]; discriminate|exact E]. exact J.
Qed.
(** changes that concern neither the table nor the requests *)
Lemma CI_same c t c' : CI c t -> hold c' = hold c -> pre c' = pre c -> rs c' = rs c ->
  (forall r code body, reader c' = Some (Some r, code, body) -> reader c = Some (Some r, code, body)) -> CI c' t.
Proof. intros [i1 i2 i3 i4 i5 i6 i7 i8 i9 i10] H P R D. constructor; rewrite ?H, ?P, ?R; try assumption. intros r code body E. apply i10. now apply D. Qed.
Lemma CI_obs c t o : CI c t -> wires o = [] -> dones o = [] -> (forall i b d, ~ In (OGot i b d) o) -> CI c (t ++ o).
Proof.
  intros [i1 i2 i3 i4 i5 i6 i7 i8 i9 i10] W D G. constructor; rewrite ?(quiet_nsent t o W), ?wires_app, ?dones_app, ?W, ?D, ?app_nil_r; try assumption.
  intros r code body E. apply (read_more t r code body o G) in i10 as J; [|exact E]. exact J.
Qed.
Lemma Resp_spec c t id : CI c t -> 0 <= id < 2 ^ 32 -> forall h' ir, remove (hold c) id = Some (h', ir) ->
  exists n, 0 <= n /\ n / 256 <= cc (nsent t + has (pre c)) / 256 /\ n mod 2 ^ 32 = id /\ find_row (hold c) (id / 256) = Some (n / 256) /\
    ir = own (slot_of (hold c) n) /\ removed (hold c) h' (cc (nsent t + has (pre c))) n.
Proof.
  intros I Hid h' ir E. destruct (remove_inv _ _ _ _ E) as [B FB]. destruct (remove_ok _ _ _ (ci_U _ _ I) Hid B FB) as (h2 & n & E2 & N1 & N2 & N3 & N4 & R).
  rewrite E2 in E. injection E as -> <-. exists n. rewrite N2. split; [exact N1|split; [exact N3|split; [exact N4|split; [exact FB|split; [reflexivity|exact R]]]]].
Qed.
Lemma CI_step c t e o c' : CI c t -> step c e = (o, Some c') -> never_next (t ++ o) -> CI c' (t ++ o).
Proof.
  intros I E NN. pose proof I as [i1 i2 i3 i4 i5 i6 i7 i8 i9 i10]. destruct e as [|r|id code body| |r code| | |]; cbn [step] in E.
  - (* Prefetch *) destruct (pre c) as [s|] eqn:P; [injection E as <- <-; now rewrite app_nil_r|].
    destruct (open c); [|injection E as <- <-; now rewrite app_nil_r]. cbn [has] in i1. rewrite Z.add_0_r in i1.
    pose proof (nsent_nn t) as N0. destruct (getNext_ok _ _ i1 (cc_valid _ N0)) as (h' & E' & GN & V). rewrite E' in E. injection E as <- <-. rewrite app_nil_r.
    rewrite nextc_cc in * by exact N0. destruct GN as [g1 g2 _ _ _ _ _ _].
    assert (FR : forall k, (k < length (wires t))%nat -> cntr (Z.of_nat k) <> cntr (nsent t)).
    { intros k Hk Q. apply cntr_inj in Q; rewrite ?nsent_wires in *; lia. }
    constructor; cbn [hold pre reader rs has]; try assumption.
    + now rewrite cc_succ.
    + intros w i Q. injection Q as <- <-. split; [reflexivity|split; [reflexivity|]]. rewrite g2, Z.eqb_refl, cntr_mod. reflexivity.
    + intros n r Hn Q. rewrite g2 in Q. destruct (n =? cntr (nsent t)); [discriminate|]. now apply i4.
    + intros r w i Q. destruct (i5 _ _ _ Q) as (k & K & K1 & K2 & K3). exists k. repeat (split; [assumption|]). rewrite g2.
      destruct (Z.eqb_spec (cntr (Z.of_nat k)) (cntr (nsent t))) as [Q2|]; [|exact K3]. apply nth_lt in K. now apply FR in Q2.
  - (* Send *) destruct (pre c) as [[w i]|] eqn:P; [|injection E as <- <-; now rewrite app_nil_r].
    destruct (rs c r) as [| |] eqn:R; try (injection E as <- <-; now rewrite app_nil_r). destruct (open c); [|injection E as <- <-; now rewrite app_nil_r].
    destruct (i2 _ _ eq_refl) as (-> & -> & SP). injection E as <- <-. fold (slot_of (hold c) (cntr (nsent t))). rewrite SP. cbn [fake].
    set (o := [OWire (nth_id (nsent t)) r]).
    assert (WS : wires (t ++ o) = wires t ++ [(nth_id (nsent t), r)]) by apply wires_app.
    assert (DS : dones (t ++ o) = dones t) by (rewrite dones_app; apply app_nil_r).
    assert (NS : nsent (t ++ o) = nsent t + 1) by (rewrite nsent_app; reflexivity).
    assert (RN : ~ In r (map snd (wires t))) by (intro Q; now apply i6 in Q).
    constructor; cbn [hold pre reader rs has]; rewrite ?NS, ?WS, ?DS; try assumption.
    + rewrite Z.add_0_r. apply U_set; [exact i1| |right; now rewrite cntr_mod]. cbn [has]. rewrite cc_succ by apply nsent_nn. pose proof (cntr_pos _ (nsent_nn t)). lia.
    + discriminate.
    + intros k x Q. destruct (Nat.lt_ge_cases k (length (wires t))) as [L|L].
      * rewrite nth_error_app1 in Q by exact L. now apply i3.
      * rewrite nth_error_app2 in Q by exact L. destruct (k - length (wires t))%nat eqn:D; [|destruct n; discriminate]. injection Q as <-. cbn [fst]. rewrite nsent_wires. do 2 f_equal. lia.
    + intros n r' Hn Q. rewrite slot_set in Q. rewrite updr_get. destruct (Z.eqb_spec n (cntr (nsent t))) as [->|Nn].
      * cbn [own] in Q. injection Q as <-. now rewrite Nat.eqb_refl.
      * apply i4 in Q; [|exact Hn]. destruct (Nat.eqb_spec r' r); [congruence|exact Q].
    + intros r' w i Q. rewrite updr_get in Q. destruct (Nat.eqb_spec r' r) as [->|Nr].
      * injection Q as <- <-. exists (length (wires t)). rewrite nth_error_app2, Nat.sub_diag by lia. rewrite <- nsent_wires. repeat (split; [reflexivity|]). now rewrite slot_set, Z.eqb_refl.
      * destruct (i5 _ _ _ Q) as (k & K & K1 & K2 & K3). exists k. pose proof (nth_lt _ _ _ K) as L. rewrite nth_error_app1 by exact L. repeat (split; [assumption|]).
        rewrite slot_set. destruct (Z.eqb_spec (cntr (Z.of_nat k)) (cntr (nsent t))) as [Q2|]; [|exact K3]. rewrite Q2, SP in K3. discriminate.
    + intros r' Q. rewrite updr_get. destruct (Nat.eqb_spec r' r) as [->|N]; [discriminate|]. apply i6. rewrite map_app in Q. apply in_app_or in Q. destruct Q as [Q|[Q|[]]]; [exact Q|]. now elim N.
    + rewrite map_app. cbn [map snd]. apply (Permutation_NoDup (Permutation_cons_append _ r)). now constructor.
    + intros r' x. rewrite updr_get. destruct (Nat.eqb_spec r' r) as [->|N]; [|apply i8]. split; [discriminate|]. intro Q. apply i8 in Q. congruence.
    + intros r' code body Q. apply i10 in Q. apply (read_more t r' code body o) in Q; [|intros i b d [Q1|[]]; discriminate]. exact Q.
  - (* Resp *) destruct (reader c) as [x|] eqn:RD; [injection E as <- <-; now rewrite app_nil_r|].
    destruct (open c && (0 <=? id) && (id <? 2 ^ 32)) eqn:G; [|injection E as <- <-; now rewrite app_nil_r].
    apply andb_true_iff in G. destruct G as [G G3%Z.ltb_lt]. apply andb_true_iff in G. destruct G as [_ G2%Z.leb_le].
    destruct (remove (hold c) id) as [[h' ir]|] eqn:RM; [|discriminate]. injection E as <- <-.
    destruct (Resp_spec c t id I (conj G2 G3) h' ir RM) as (n & N1 & N2 & N3 & N4 & -> & [r1 r2 _ _ _ _ _]).
    assert (NX : id <> nth_id (nsent t)) by (apply (NN t id code body []); reflexivity).
    assert (OWN : forall m, own (slot_of h' m) = own (slot_of (hold c) m)).
    { intro m. rewrite r2. destruct (Z.eqb_spec m n) as [->|]; reflexivity. }
    set (o := [OGot id code body]).
    assert (WS : wires (t ++ o) = wires t) by (rewrite wires_app; apply app_nil_r).
    assert (DS : dones (t ++ o) = dones t) by (rewrite dones_app; apply app_nil_r).
    assert (NS : nsent (t ++ o) = nsent t) by (apply quiet_nsent; reflexivity).
    constructor; cbn [hold pre reader rs]; rewrite ?NS, ?WS, ?DS; try assumption.
    + intros w i Q. destruct (i2 _ _ Q) as (A & B & C). split; [exact A|split; [exact B|]]. rewrite r2. destruct (Z.eqb_spec (cntr (nsent t)) n) as [Q2|]; [|exact C].
      elim NX. rewrite <- N3, <- Q2, cntr_mod. reflexivity.
    + intros m r Hm Q. rewrite OWN in Q. now apply i4.
    + intros r w i Q. destruct (i5 _ _ _ Q) as (k & K & K1 & K2 & K3). exists k. rewrite OWN. now repeat split.
    + intros r code' body' Q. injection Q as Q <- <-. exists id, t, []. split; [|now split].
      * pose proof (i4 _ _ N1 Q) as F. destruct (i5 _ _ _ F) as (k & K & K1 & K2 & K3). apply nth_error_In in K. rewrite <- N3. rewrite (pos_eq _ _ K1 K2), cntr_mod. exact K.
  - (* Deliver *) destruct (reader c) as [[[ir code] body]|] eqn:RD; [|injection E as <- <-; now rewrite app_nil_r].
    set (c1 := mkConn (hold c) (pre c) None (rs c) (shut c) (open c) (flush c)) in *.
    assert (I1 : CI c1 t) by (apply (CI_same c t c1 I); try reflexivity; discriminate).
    destruct ir as [r|]; [|injection E as <- <-; now rewrite app_nil_r]. destruct (rs c1 r) as [|w i|] eqn:R; injection E as <- <-; rewrite ?app_nil_r; try exact I1.
    apply CI_complete; [exact I1|]. intros x Q. congruence.
  - (* Local *) destruct (rs c r) as [|w i|] eqn:R; injection E as <- <-; rewrite ?app_nil_r; try exact I; (apply CI_complete; [exact I|intros x Q; congruence]).
  - (* Stop *) injection E as <- <-. rewrite app_nil_r. apply (CI_same c t); try reflexivity; [exact I|]. now intros.
  - (* Close *) destruct (reader c) as [x|] eqn:RD; [injection E as <- <-; now rewrite app_nil_r|]. destruct (open c); [|injection E as <- <-; now rewrite app_nil_r].
    destruct (getAll (hold c)) as [l|]; [|discriminate]. injection E as <- <-. apply CI_obs; try reflexivity.
    + apply (CI_same c t); try reflexivity; [exact I|discriminate].
    + intros i b d [Q|[]]. discriminate.
  - (* Flush *) destruct (flush c) as [|[w i] l]; [injection E as <- <-; now rewrite app_nil_r|].
    assert (I1 : CI (with_flush c l) t) by (apply (CI_same c t _ I); try reflexivity; now intros).
    destruct (own (slots (rows (hold (with_flush c l)) w) i)) as [r|]; [|injection E as <- <-; now rewrite app_nil_r].
    destruct (rs (with_flush c l) r) as [|w' i'|] eqn:R; injection E as <- <-; rewrite ?app_nil_r; try exact I1; (apply CI_complete; [exact I1|intros x Q; congruence]).
Qed.
Lemma CI_reach c t : reach c t -> never_next t -> CI c t.
Proof. induction 1 as [|c t e o c' R IH E]; intro N; [exact CI_init|]. apply (CI_step c t e); [apply IH; eapply never_next_pre; exact N|exact E|exact N]. Qed.
