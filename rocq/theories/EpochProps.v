(** C104-C106: Epoch. *)
From Coq Require Import List ZArith Lia Bool Permutation.
Import ListNotations.
From Verif Require Import TimerModel TimerSpec TimerProps EpochModel EpochSpec.
Open Scope Z_scope.

Lemma i64_fits z : fits z -> i64 z = z.
Proof. unfold fits, i64, min. intro H. rewrite Z.mod_small; lia. Qed.
Lemma i64_range z : fits (i64 z).
Proof. unfold fits, i64, min. pose proof (Z.mod_pos_bound (z - -9223372036854775808) 18446744073709551616 eq_refl). lia. Qed.
Lemma i64_eq a b k : a = b + k * 18446744073709551616 -> i64 a = i64 b.
Proof. intros ->. unfold i64. replace (b + k * 18446744073709551616 - min) with (b - min + k * 18446744073709551616) by lia. now rewrite Z_mod_plus_full. Qed.
Lemma i64_wrap z : exists k, i64 z = z + k * 18446744073709551616.
Proof. exists (- ((z - min) / 18446744073709551616)). unfold i64. pose proof (Z.div_mod (z - min) 18446744073709551616 ltac:(discriminate)). lia. Qed.
Lemma sat_fits z : fits z -> sat z = z.
Proof. unfold fits, sat, max, min. lia. Qed.
Lemma sat_range z : fits (sat z).
Proof. unfold fits, sat, max, min. lia. Qed.

(** ** C104: an Epoch stands for the moment it was made from *)
Theorem C104_round_trip_partial tm : 0 < tm -> fits tm -> Time (NewEpoch tm) = tm.
Proof. intros H F. unfold Time, NewEpoch. rewrite sat_fits by exact F. destruct (Z.ltb_spec 0 tm); lia. Qed.
(** moments before 2010, and the beginning of 2010 itself, are forgotten; late ones are all the same *)
Theorem C104_past_refuted tm : tm <= 0 -> Time (NewEpoch tm) = zero_time.
Proof. intro H. unfold Time, NewEpoch, sat, min, max. destruct (Z.ltb_spec 0 (Z.max (-9223372036854775808) (Z.min 9223372036854775807 tm))); [lia|reflexivity]. Qed.
Theorem C104_future_refuted tm tm' : 9223372036854775807 <= tm -> 9223372036854775807 <= tm' -> NewEpoch tm = NewEpoch tm'.
Proof. unfold NewEpoch, sat, max, min. lia. Qed.
(** Zero tells the beginning of 2010, and no other moment, from the rest; earlier moments have the Time of the unset Epoch but
    are not Zero *)
Theorem C104_zero tm : (Zero (NewEpoch tm) = true <-> tm = 0) /\ (tm < 0 -> Time (NewEpoch tm) = zero_time /\ Zero (NewEpoch tm) = false).
Proof.
  unfold Zero, NewEpoch. split.
  - rewrite Z.eqb_eq. unfold sat, max, min. lia.
  - intro H. split; [now apply C104_past_refuted; lia|]. apply Z.eqb_neq. unfold sat, max, min. lia.
Qed.
(** the order of moments is kept *)
Theorem C104_order tm tm' : (Before (NewEpoch tm) (NewEpoch tm') = true -> tm < tm') /\ (fits tm -> fits tm' -> tm < tm' -> Before (NewEpoch tm) (NewEpoch tm') = true).
Proof.
  unfold Before, NewEpoch. split.
  - intro H. apply Z.ltb_lt in H. unfold sat in H. lia.
  - intros F F' H. rewrite !sat_fits by assumption. now apply Z.ltb_lt.
Qed.
(** Sub and Add undo each other, whatever overflows *)
Theorem C104_add_sub e d : fits e -> fits d -> Sub (Add e d) e = d /\ Add e (Sub d e) = d.
Proof.
  intros F D. unfold Sub, Add. split.
  - destruct (i64_wrap (e + d)) as [k K]. rewrite K, (i64_eq _ d k) by lia. now apply i64_fits.
  - destruct (i64_wrap (d - e)) as [k K]. rewrite K, (i64_eq _ d k) by lia. now apply i64_fits.
Qed.
(** differences are exact when the true difference is a Duration *)
Theorem C104_difference tm tm' : fits tm -> fits tm' -> fits (tm - tm') -> Sub (NewEpoch tm) (NewEpoch tm') = tm - tm' /\ SubTime (NewEpoch tm) tm' = tm - tm' /\ Add (NewEpoch tm') (tm - tm') = NewEpoch tm.
Proof.
  intros F F' D. unfold Sub, SubTime, Add, NewEpoch. rewrite !sat_fits by assumption. repeat split; try (now apply i64_fits). rewrite i64_fits; replace (tm' + (tm - tm')) with tm by lia; trivial.
Qed.
(** Add moves forward, but not beyond the largest Epoch: there it jumps to the distant past *)
Theorem C104_forward_partial e d : fits e -> 0 < d -> e + d <= max -> Before e (Add e d) = true.
Proof. intros F D H. unfold Before, Add. rewrite i64_fits by (unfold fits, max in *; lia). apply Z.ltb_lt. lia. Qed.
Theorem C104_forward_refuted e d : fits e -> fits d -> 0 < d -> max < e + d -> Before (Add e d) e = true.
Proof.
  intros F D P H. unfold Before, Add. rewrite (i64_eq _ (e + d - 18446744073709551616) 1) by lia. rewrite i64_fits by (unfold fits, max in *; lia). apply Z.ltb_lt. unfold fits in *. lia.
Qed.

(** ** C105: expiry as the clock tells it *)
(** WillExpire(after) of a deadline tells whether it is past when [after] has gone by; a deadline that is not positive never
    expires *)
Theorem C105_will_expire_partial clock e after : fits clock -> fits e -> 0 <= after -> fits after -> WillExpire clock e after = true <-> 0 < e /\ e < clock + after.
Proof.
  intros C F A A'. unfold WillExpire, NowEpoch. rewrite sat_fits by exact C. rewrite andb_true_iff, !Z.ltb_lt. split; intros [P H]; (split; [exact P|]).
  - rewrite i64_fits in H by (unfold fits in *; lia). lia.
  - rewrite i64_fits by (unfold fits in *; lia). lia.
Qed.
(** in 2010 a deadline in 2299 was going to expire six years earlier: negative arguments overflow *)
Theorem C105_negative_refuted : exists clock e after, fits clock /\ 0 < e /\ fits e /\ fits after /\ after < 0 /\ clock + after < e /\ WillExpire clock e after = true.
Proof. exists 1000, 9123372036854775807, (-200000000000000000). unfold fits. repeat split; try lia; reflexivity. Qed.
(** what is left of a deadline, and what has gone by since a moment, is exact; Elapsed is the opposite of Remains *)
Theorem C105_remains clock e : fits clock -> fits (e - clock) -> Remains clock e = e - clock.
Proof. intros C D. unfold Remains, NowEpoch. rewrite sat_fits by exact C. now apply i64_fits. Qed.
Theorem C105_elapsed clock clock' : fits clock -> fits clock' -> fits (clock' - clock) -> Elapsed clock' (NowEpoch clock) = clock' - clock.
Proof. intros C C' D. unfold Elapsed, NowEpoch. rewrite !sat_fits by assumption. now apply i64_fits. Qed.
(** a clock that is set back makes it negative *)
Theorem C105_set_back clock clock' : fits clock -> fits clock' -> fits (clock' - clock) -> (Elapsed clock' (NowEpoch clock) < 0 <-> clock' < clock).
Proof. intros C C' D. rewrite C105_elapsed by assumption. lia. Qed.

(** ** C106: a timer does not fire before its time *)
Lemma live_armed ops : forall h tr, hrun hinit ops = Some (h, tr) -> forall x e, In (x, e) (live_cells h) -> exists n, nth_error ops n = Some (Arm x e) /\ (n < length ops)%nat.
Proof.
  induction ops as [|o ops IH] using rev_ind; intros h tr E x e L; [injection E as <- <-; destruct L|].
  apply hrun_app in E. destruct E as (h1 & t1 & t2 & E1 & E2 & ->). cbn [hrun] in E2. destruct (hstep h1 o) as [[h2 ev]|] eqn:S; [|discriminate]. injection E2 as <- <-.
  pose proof (C38_only_freed_cells_reused ops h1 t1 o h2 ev E1 S) as P.
  assert (Q : In (x, e) (live_cells h1) \/ o = Arm x e).
  { destruct o as [y f|y|now]; cbn [hstep] in S.
    - destruct (push h1 y f); cbn in S; [|discriminate]. injection S as <- <-. apply (Permutation_in _ P) in L. destruct L as [L|L]; [right; congruence|now left].
    - left. assert (ev = Stopped y) as -> by (destruct (Nat.eqb _ _); [now injection S|]; destruct (remove h1 (ti h1 y)); cbn in S; [now injection S|discriminate]). destruct P as [P|(f & P)]; [now rewrite P in L|]. symmetry in P. apply (Permutation_in _ P). now right.
    - left. destruct ev as [y f|y|y f nw|nw]; [exfalso|exfalso| |now rewrite P in L]; try (symmetry in P; apply (Permutation_in _ P); now right).
      all: destruct (size h1 =? 0); [discriminate|]; destruct (get h1 (top h1)) as [t|]; cbn in S; [|discriminate]; destruct (now <=? ie t); [discriminate|]; destruct (remove h1 (top h1)); cbn in S; [|discriminate]; destruct (ix t); discriminate. }
  rewrite app_length. cbn. destruct Q as [Q| ->].
  - destruct (IH _ _ E1 x e Q) as (n & N & LT). exists n. split; [now rewrite nth_error_app1|lia].
  - exists (length ops). split; [|lia]. rewrite nth_error_app2, Nat.sub_diag by lia. reflexivity.
Qed.
(** Every expiry belongs to an earlier call of After, and the clock has passed the time of that call plus the duration asked
    for, if that sum is an Epoch: *)
Theorem C106_not_early_partial ops h tr n x e now : crun ops = Some (h, tr) -> fired tr n x e now -> (forall clock, In (Round clock) ops -> fits clock) ->
  (forall y clock d, In (After y clock d) ops -> fits clock /\ fits (clock + d)) ->
  exists m clock d clock', (m < n)%nat /\ called ops m x clock d /\ nth_error ops n = Some (Round clock') /\ clock + d < clock'.
Proof.
  intros E F R A. unfold crun, fired in *. apply nth_error_split in F. destruct F as (pre & post & Q & L).
  destruct (hrun_split _ _ _ _ _ _ E Q) as (ops1 & o & ops2 & h1 & h2 & O & E1 & S & _). pose proof (hrun_len _ _ _ _ E1) as L1. rewrite L in L1.
  assert (exists p, o = Pop p) as [p ->].
  { destruct o as [y f|y|p]; [exfalso|exfalso|now exists p]; cbn in S; [destruct (push h1 y f); discriminate|]. destruct (Nat.eqb _ _); [discriminate|]. now destruct (remove h1 (ti h1 y)). }
  assert (B : e < p /\ In (x, e) (live_cells h1)).
  { destruct (C35_deadline_order_never_early (ops1 ++ [Pop p]) h2 (pre ++ [Fired x e now]) pre x e now []) as (ops3 & h3 & E3 & LT & LV & _); trivial.
    - apply hrun_app. exists h1, pre, [Fired x e now]. repeat split; trivial. cbn [hrun]. now rewrite S.
    - assert (now = p). { cbn [hstep] in S. destruct (size h1 =? 0); [discriminate|]. destruct (get h1 (top h1)) as [t|]; cbn in S; [|discriminate]. destruct (p <=? ie t); [discriminate|]. destruct (remove h1 (top h1)); cbn in S; [|discriminate]. destruct (ix t); [|discriminate]. now injection S. }
      subst p. split; [exact LT|]. pose proof (C38_only_freed_cells_reused ops1 h1 pre (Pop now) h2 (Fired x e now) E1 S) as P. cbn in P. apply (Permutation_in _ (Permutation_sym P)). now left. }
  destruct B as [LT LV]. destruct (live_armed _ _ _ E1 x e LV) as (m & M & ML).
  assert (NP : nth_error (map section ops) n = Some (Pop p)) by (rewrite O, nth_error_app2, L1, Nat.sub_diag by lia; reflexivity).
  assert (NM : nth_error (map section ops) m = Some (Arm x e)) by (rewrite O, nth_error_app1 by lia; exact M).
  rewrite nth_error_map in NP, NM. destruct (nth_error ops n) as [[| |clock']|] eqn:On; try discriminate. destruct (nth_error ops m) as [[y clock d| |]|] eqn:Om; try discriminate.
  cbn in NP, NM. injection NP as NP. injection NM as -> NM. exists m, clock, d, clock'. split; [lia|]. split; [exact Om|]. split; [reflexivity|].
  destruct (A x clock d (nth_error_In _ _ Om)) as [C D]. pose proof (R clock' (nth_error_In _ _ On)) as C'.
  unfold Add, NowEpoch in NM, NP. rewrite (sat_fits clock), i64_fits in NM by trivial. rewrite sat_fits in NP by trivial. lia.
Qed.
(** a timer asked to wait for the longest Duration fires at once *)
Theorem C106_longest_refuted clock x : 0 < clock -> fits clock -> exists h e,
  crun [After x clock max; Round clock] = Some (h, [Armed x e; Fired x e clock]).
Proof.
  intros P F. unfold crun. cbn [map section]. unfold NowEpoch, Add. rewrite !sat_fits by exact F. rewrite (i64_eq (clock + max) (clock - 9223372036854775809) 1) by (unfold max; lia). rewrite i64_fits by (unfold fits in *; lia).
  set (e := clock - 9223372036854775809). assert (LT : e < clock) by (unfold e; lia). clearbody e.
  destruct (C38_timer_heap_never_corrupts [Arm x e; Pop clock]) as (h & tr & E & _ & _). exists h, e. rewrite E. f_equal. f_equal.
  cbn [hrun] in E. destruct (hstep hinit (Arm x e)) as [[h1 ev]|] eqn:S1; [|discriminate]. destruct (hstep h1 (Pop clock)) as [[h2 ev2]|] eqn:S2; [|discriminate]. injection E as <- <-.
  cbn in S1. injection S1 as <- <-. cbn in S2. assert (X : fupd (fun _ : nat => 0%nat) x 1%nat x = 1%nat) by (unfold fupd; now rewrite Nat.eqb_refl). rewrite X in S2. clear X. cbn in S2. destruct (Z.leb_spec clock e); [lia|]. cbn in S2. injection S2 as _ <-. reflexivity.
Qed.
(** the sleep of the loop is exact *)
Theorem C106_sleep e clock : 0 <= clock -> fits clock -> fits e -> clock <= e -> Sub e (NowEpoch clock) = e - clock.
Proof. intros P C F L. unfold Sub, NowEpoch. rewrite sat_fits by exact C. apply i64_fits. unfold fits in *. lia. Qed.

(** 2023-11-14 and an hour later *)
Example C104_ex : let tm := 437841000123456789 in 0 < tm /\ fits tm /\ Time (NewEpoch tm) = tm /\ Sub (NewEpoch (tm + 3600000000000)) (NewEpoch tm) = 3600000000000.
Proof. cbv zeta. unfold fits. repeat split; try lia; reflexivity. Qed.
Example C105_ex : WillExpire 437841000123456789 437841000123456799 20 = true /\ WillExpire 437841000123456789 437841000123456799 10 = false.
Proof. split; reflexivity. Qed.
Example C106_ex : exists h, crun [After 1 1000 50; After 2 1010 20; Round 1030; Round 1031; After 3 1040 5; StopC 3; Round 1051; Round 1060] =
  Some (h, [Armed 1 1050; Armed 2 1030; Asleep 1030; Fired 2 1030 1031; Armed 3 1045; Stopped 3; Fired 1 1050 1051; Asleep 1060]).
Proof. eexists. vm_compute. reflexivity. Qed.

Print Assumptions C104_round_trip_partial.
Print Assumptions C104_past_refuted.
Print Assumptions C104_future_refuted.
Print Assumptions C104_order.
Print Assumptions C104_add_sub.
Print Assumptions C104_difference.
Print Assumptions C104_forward_partial.
Print Assumptions C104_forward_refuted.
Print Assumptions C105_will_expire_partial.
Print Assumptions C105_negative_refuted.
Print Assumptions C105_remains.
Print Assumptions C105_elapsed.
Print Assumptions C105_set_back.
Print Assumptions C106_not_early_partial.
Print Assumptions C106_longest_refuted.
Print Assumptions C106_sleep.
Print Assumptions C104_zero.
