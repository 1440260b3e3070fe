(** Theorems about the client endpoint's connections. *)
From Coq Require Import List Bool Arith ZArith Lia.
Import ListNotations.
From Verif Require Import ClientModel ClientSpec ClientProofs.
Open Scope Z_scope.

(** ** C59: what the endpoint believes about its connections *)
(** As long as the number of connections is not reduced, the endpoint's counters are what they say. *)
Theorem C59_counts_partial n es t s : 0 <= n -> grows n es -> start n es = (t, s) ->
  count_of (est s) (known_up t) /\ count_of (dialing s) (awaited t).
Proof. intros N G E. destruct (start_RI n es t s N G E). auto. Qed.
Print Assumptions C59_counts_partial.

(** In every execution the endpoint's knowledge is true but for what is under way. *)
Theorem C59_truth n es t s i : start n es = (t, s) ->
  (usable s i -> (In (OUp i) t \/ In (i, KDialOk) (ch s)) /\ ~ In (ODown i) t) /\
  (known_up t i -> usable s i \/ starting s i \/ ending s i).
Proof.
  intro E. pose proof (start_GI n es t s E) as G. pose proof (g_v t s G i) as [V1 V2]. split.
  - intro U. assert (Cw : cw (cn s i) <> WOff /\ cw (cn s i) <> WEnd) by (unfold usable in U; destruct (cw (cn s i)); split; congruence || tauto).
    destruct Cw as [W0 W1]. split.
    + destruct (in_dec msg_dec (i, KDialOk) (ch s)) as [|Ni]; [auto|].
      left. apply (g_up t s G). split; [|assumption]. now rewrite (V1 W0).
    + rewrite (g_down t s G). tauto.
  - intros [U D]. apply (g_up t s G) in U as [Cl _]. rewrite (g_down t s G) in D.
    destruct (start_valid2 n es t s E i) as [V3 _].
    unfold usable, starting, ending. destruct (cl (cn s i)) eqn:Ecl; try discriminate Cl.
    + auto.
    + destruct (cw (cn s i)) eqn:Ecw; auto.
      * exfalso. now apply V3.
      * right. right. right. right. destruct (in_dec msg_dec (i, KWrite) (ch s)) as [|Ni]; [assumption|]. exfalso. apply D. auto.
Qed.
Print Assumptions C59_truth.

(** As long as the number of connections is not reduced, the endpoint fails the queued requests only when it knows of no
    usable connection. *)
Theorem C59_queue_failed_only_if_none_partial n es t s a b : 0 <= n -> grows n es -> start n es = (t, s) ->
  t = a ++ OAllDisc :: b -> forall i, ~ known_up a i.
Proof.
  intros N Gr E Et. revert a b Et. change (AD t). unfold start in E.
  destruct (s_init n) as [o0 s0] eqn:I0. destruct (run s0 es) as [o1 s1] eqn:R1. injection E as <- <-.
  eapply AD_run; [eapply RI_init; eassumption| |eassumption|eassumption].
  intros a b E i _. subst. eapply ad_open; [exact I0|]. apply in_or_app. right. now left.
Qed.
Print Assumptions C59_queue_failed_only_if_none_partial.

(** connection i becomes established and waits for requests *)
Definition up (i : nat) : list ev := [CStart i; CDial i true; CSend i; TakeErr; CSet i; W i; W i].
(** one connection out of two fails; a third is opened: *)
Definition C59_ex : list ev := up 1 ++ up 2 ++ [WFail 1; WGet 1; WFail 1; W 1; W 1; TakeErr; RFail 1; R 1; K 1; K 1; K 1; SetConns 3; TakeAct; Tick].
Example C59_ex_run : grows 2 C59_ex /\ exists t s, start 2 C59_ex = (t, s) /\ est s = 1 /\ dialing s = 2 /\
  known_up t 2 /\ awaited t 3 /\ awaited t 4 /\ ~ known_up t 1 /\ In (ODown 1) t /\ usable s 2.
Proof.
  split; [cbn; lia|]. eexists _, _. split; [vm_compute; reflexivity|]. unfold known_up, awaited, usable. cbn. intuition discriminate.
Qed.
(** both fail: the queued requests are failed *)
Definition fails (i : nat) : list ev := [WGet i; WFail i; W i; W i; TakeErr].
Example C59_ex_alldisc : exists t s, start 2 (up 1 ++ up 2 ++ fails 1 ++ fails 2) = (t, s) /\
  t = [OOpen 1; OOpen 2; OUp 1; OUp 2; ODown 1; ODown 2] ++ OAllDisc :: [].
Proof. eexists _, _. split; vm_compute; reflexivity. Qed.

(** Reducing the number of connections breaks this: a connection that is stopped is counted out twice. The endpoint fails
    the queued requests although it has a usable connection, and on its next tick opens a connection too many. *)
Definition C59_shrink : list ev := up 1 ++ up 2 ++ [SetConns 1; TakeAct; Tick; Visit 1; WExit 1; W 1; W 1; TakeErr].
Theorem C59_shrink_refuted : exists t s a b,
  start 2 C59_shrink = (t, s) /\ configured 2 C59_shrink = 1 /\ t = a ++ OAllDisc :: b /\ known_up a 2 /\
  usable s 2 /\ ~ count_of (est s) (known_up t).
Proof.
  eexists _, _, [OOpen 1; OOpen 2; OUp 1; OUp 2; OStop 1; ODown 1], [].
  split; [vm_compute; reflexivity|]. split; [reflexivity|]. split; [vm_compute; reflexivity|].
  split; [unfold known_up; cbn; intuition discriminate|]. split; [exact Logic.I|].
  intro C. apply (count_zero _ C 2%nat). unfold known_up; cbn; intuition discriminate.
Qed.
Print Assumptions C59_shrink_refuted.

(** ** C81: no more connections than configured *)
Theorem C81_at_most_configured_partial n es t s l : 0 <= n -> grows n es -> start n es = (t, s) ->
  NoDup l -> (forall i, In i l -> usable s i \/ opening t s i) -> Z.of_nat (length l) <= configured n es.
Proof.
  intros N Gr E ND H. pose proof (start_RI n es t s N Gr E) as X. pose proof (start_valid2 n es t s E) as V2.
  destruct X as [G _ _ _ Ac Le Du (ld & D1 & D2 & D3) (lu & U1 & U2 & U3)].
  assert (I0 : incl l (lu ++ ld)).
  { intros i Hi. rewrite in_app_iff, U2, D2. unfold known_up, awaited. pose proof (g_v t s G i) as [V1 V1'].
    assert (Ope : cls_of (cl (cn s i)) = Up -> In (OOpen i) t).
    { intro Cl. apply (g_open t s G). destruct (le_lt_dec i (curId s)) as [L|L]; [destruct i as [|i]|].
      - destruct (g_new t s G 0%nat) as (B1 & _); [unfold exists_conn; lia|]. rewrite B1 in Cl. discriminate.
      - unfold exists_conn; lia.
      - destruct (g_new t s G i) as (B1 & _); [unfold exists_conn; lia|]. rewrite B1 in Cl. discriminate. }
    rewrite !(g_down t s G), !(g_err t s G).
    destruct (H i Hi) as [U|[O C]].
    - assert (Cw : cw (cn s i) <> WOff /\ cw (cn s i) <> WEnd) by (unfold usable in U; destruct (cw (cn s i)); split; congruence || tauto).
      destruct Cw as [W0 W1]. specialize (V1 W0).
      assert (Cl : cls_of (cl (cn s i)) = Up) by now rewrite V1.
      destruct (in_dec obs_dec (OUp i) t) as [Y|Y]; [left; tauto|]. right. split; [auto|]. split; [assumption|]. rewrite Cl. intros [Z _]; discriminate.
    - destruct (in_dec obs_dec (OUp i) t) as [Y|Y].
      + left. split; [assumption|]. intros [Z _]. assert (C0 : cl (cn s i) = LOk) by (apply V1; congruence). now rewrite C0 in C.
      + right. split; [assumption|]. split; [assumption|]. intros [Z _]. destruct (cl (cn s i)); try discriminate Z; destruct C. }
  pose proof (NoDup_incl_length ND I0) as L. rewrite app_length in L. apply chain_le in Ac. lia.
Qed.
Print Assumptions C81_at_most_configured_partial.
Example C81_ex : exists t s, start 2 C59_ex = (t, s) /\ usable s 2 /\ opening t s 3 /\ opening t s 4 /\ configured 2 C59_ex = 3.
Proof. eexists _, _. split; [vm_compute; reflexivity|]. unfold usable, opening. cbn. tauto. Qed.
Theorem C81_shrink_refuted : exists es t s,
  start 2 es = (t, s) /\ configured 2 es = 1 /\ usable s 2 /\ usable s 3 /\ acts s = [] /\ ch s = [] /\ sp s = SIdle.
Proof.
  exists (C59_shrink ++ [Tick] ++ up 3). eexists _, _. split; [vm_compute; reflexivity|]. split; [reflexivity|]. repeat (split; [exact Logic.I|]). auto.
Qed.
Print Assumptions C81_shrink_refuted.

(** ** C83: connections that are lost are opened anew *)
(** After the endpoint's tick, usable and awaited connections together are as many as configured. *)
Lemma nd_app {A} (l m : list A) : NoDup l -> NoDup m -> (forall x, In x l -> ~ In x m) -> NoDup (l ++ m).
Proof.
  induction l as [|a l IH]; intros N M D; [assumption|]. inversion N; subst. cbn [app]. constructor.
  - rewrite in_app_iff. intros [X|X]; [tauto|]. apply (D a); [now left|assumption].
  - apply IH; auto. intros x X. apply D. now right.
Qed.
Theorem C83_refill_partial n es t s o s' : 0 <= n -> grows n es -> start n es = (t, s) -> acts s = [] ->
  step s Tick = (o, s') ->
  count_of (configured n es) (fun i => known_up (t ++ o) i \/ awaited (t ++ o) i).
Proof.
  intros N Gr E Ac Ti. pose proof (start_RI n es t s N Gr E) as X.
  pose proof (RI_step t s _ Tick o s' X Logic.I Ti) as X1. cbn [conf_after] in X1.
  assert (T1 : dialing s' + est s' = need s').
  { cbn [step] in Ti. rewrite (r_sp _ _ _ X) in Ti. unfold fix_connections in Ti. pose proof (r_le _ _ _ X) as Le.
    destruct (Z.ltb_spec (need s - (dialing s + est s)) 0); [lia|].
    destruct (open _ s) as [o1 s1] eqn:O. destruct (after s1) as [o2 s2] eqn:Af. injection Ti as <- <-.
    destruct (open_counts _ t s o1 s1 (r_g _ _ _ X) O (r_d _ _ _ X) (r_u _ _ _ X) (r_du _ _ _ X)) as (I1 & I2 & I3 & I4 & I5 & I6 & I7 & I8 & I9 & I10 & I11).
    apply after_core in Af as (A1 & A2 & A3 & A4 & A5 & A6 & A7 & A8 & A9 & A10 & A11 & A12). lia. }
  pose proof (r_acts _ _ _ X1) as Ch.
  assert (Ac1 : acts s' = []).
  { cbn [step] in Ti. rewrite (r_sp _ _ _ X) in Ti. unfold fix_connections in Ti. destruct (_ <? 0); [injection Ti as <- <-; exact Ac|].
    destruct (open _ s) as [o1 s1] eqn:O. destruct (after s1) as [o2 s2] eqn:Af. injection Ti as <- <-.
    destruct (open_counts _ t s o1 s1 (r_g _ _ _ X) O (r_d _ _ _ X) (r_u _ _ _ X) (r_du _ _ _ X)) as (I1 & I2 & I3 & I4 & I5 & I6 & I7 & I8 & I9 & I10 & I11).
    apply after_core in Af as (A1 & A2 & A3 & A4 & A5 & A6 & A7 & A8 & A9 & A10 & A11 & A12). congruence. }
  rewrite Ac1 in Ch. cbn [chain] in Ch.
  destruct X1 as [_ _ _ _ _ _ _ (ld & D1 & D2 & D3) (lu & U1 & U2 & U3)].
  exists (lu ++ ld). split; [|split].
  - apply nd_app; auto. intros i Y Z. apply U2 in Y. apply D2 in Z. unfold known_up, awaited in *. tauto.
  - intro i. now rewrite in_app_iff, U2, D2.
  - rewrite app_length. lia.
Qed.
Print Assumptions C83_refill_partial.
Example C83_ex : exists t s o s', start 2 (up 1 ++ up 2 ++ fails 1) = (t, s) /\ acts s = [] /\
  step s Tick = (o, s') /\ o = [OOpen 3].
Proof. eexists _, _, _, _. split; [vm_compute; reflexivity|]. split; [reflexivity|]. split; vm_compute; reflexivity. Qed.
(** after reducing the number, not: the connection that is left is usable and another one is awaited *)
Theorem C83_refill_refuted : exists es t s o s', start 2 es = (t, s) /\ acts s = [] /\ step s Tick = (o, s') /\
  configured 2 es = 1 /\ ~ count_of 1 (fun i => known_up (t ++ o) i \/ awaited (t ++ o) i).
Proof.
  exists C59_shrink. eexists _, _, _, _. split; [vm_compute; reflexivity|]. split; [reflexivity|]. split; [vm_compute; reflexivity|].
  split; [reflexivity|]. intros (l & N & I0 & L).
  assert (A : incl [2%nat; 3%nat] l).
  { intros i [<-|[<-|[]]]; apply I0; unfold known_up, awaited; cbn; intuition discriminate. }
  apply NoDup_incl_length in A; [cbn in A; lia|]. repeat constructor; cbn; intuition discriminate.
Qed.
Print Assumptions C83_refill_refuted.

(** ** C82: reducing the number of connections, and stopping the endpoint, take effect *)
(** Stopping a connection which is still dialling hangs the endpoint for good, in every execution that gets there. *)
Theorem C82_dialing_hangs n es t s i : start n es = (t, s) ->
  forall k todo, sp s = SFix k todo -> In i todo -> cs (cn s i) = CsDialing ->
  forall o s', step s (Visit i) = (o, s') -> hung s'.
Proof.
  intros E k todo Sp I0 C o s' St. apply blocked_hung. cbn [step] in St. rewrite Sp, C in St.
  apply mem_In in I0. rewrite I0 in St. injection St as <- <-.
  destruct (start_valid2 n es t s E i) as [_ V]. specialize (V C).
  assert (W0 : cw (cn s i) = WOff).
  { destruct (cw (cn s i)) eqn:Ew; auto; exfalso; apply V; apply (proj1 (g_v t s (start_GI n es t s E) i)); rewrite Ew; discriminate. }
  exists i, true, k, (del i todo). fields. rewrite upd_same. fields. rewrite W0. repeat split; discriminate.
Qed.
Print Assumptions C82_dialing_hangs.
(** So does stopping one which is just sending a request. *)
Theorem C82_busy_hangs n es t s i : start n es = (t, s) ->
  forall k todo, sp s = SFix k todo -> In i todo -> cs (cn s i) = CsConnected -> cw (cn s i) = WReq ->
  forall o s', step s (Visit i) = (o, s') -> hung s'.
Proof.
  intros E k todo Sp I0 C Cw o s' St. apply blocked_hung. cbn [step] in St. rewrite Sp, C in St.
  apply mem_In in I0. rewrite I0 in St. injection St as <- <-.
  exists i, false, k, (del i todo). fields. rewrite upd_same. fields. rewrite Cw. repeat split; discriminate.
Qed.
Print Assumptions C82_busy_hangs.
(** Both happen, for Stop as for a smaller number of connections: the endpoint never ends, and opens no connection ever after. *)
Theorem C82_stop_ends_refuted :
  (exists es t s, start 1 ([CStart 1; Stop; TakeExit] ++ es) = (t, s) /\ exiting s = true /\ hung s) /\
  (exists es t s, start 1 (up 1 ++ [Stop; TakeExit] ++ es) = (t, s) /\ exiting s = true /\ hung s) /\
  (exists es t s, start 2 (up 1 ++ up 2 ++ [SetConns 1; TakeAct] ++ es) = (t, s) /\ exiting s = false /\ hung s).
Proof.
  split; [|split].
  - exists [Tick; Visit 1]. eexists _, _. split; [vm_compute; reflexivity|]. split; [reflexivity|]. apply blocked_hung.
    exists 1%nat, true, (-1), []. repeat split; discriminate.
  - exists [Tick; WGet 1; Visit 1]. eexists _, _. split; [vm_compute; reflexivity|]. split; [reflexivity|]. apply blocked_hung.
    exists 1%nat, false, (-1), []. repeat split; discriminate.
  - exists [Tick; WGet 1; Visit 1]. eexists _, _. split; [vm_compute; reflexivity|]. split; [reflexivity|]. apply blocked_hung.
    exists 1%nat, false, (-1), [2%nat]. repeat split; discriminate.
Qed.
Print Assumptions C82_stop_ends_refuted.
(** A connection which waits for a request can be stopped. *)
Theorem C82_idle_stops_partial s i d k todo : sp s = SStop i d k todo -> cw (cn s i) = WSel2 ->
  exists o s', step s (WExit i) = (o, s') /\ cw (cn s' i) = WNote /\
    match sp s' with SStop _ _ _ _ => False | _ => True end.
Proof.
  intros Sp C. cbn [step]. rewrite Sp, C, Nat.eqb_refl.
  set (s1 := w_cn s i (c_cw (cn s i) WNote)). set (s2 := if d then w_dialing s1 (dialing s1 - 1) else w_est s1 (est s1 - 1)).
  assert (Y : cn s2 = upd (cn s) i (c_cw (cn s i) WNote)) by (unfold s2; destruct d; reflexivity).
  destruct (k + 1 =? 0).
  - destruct (after s2) as [o s'] eqn:A. exists o, s'. split; [reflexivity|]. split.
    + rewrite (cn_after _ _ _ A), Y, upd_same. reflexivity.
    + unfold after, ok in A. destruct (_ && _); injection A as <- <-; exact Logic.I.
  - eexists _, _. split; [reflexivity|]. fields. rewrite Y, upd_same. split; [reflexivity|exact Logic.I].
Qed.
Print Assumptions C82_idle_stops_partial.
(** the endpoint with idle connections ends *)
Example C82_ex_end : exists t s, start 2 (up 1 ++ up 2 ++ [Stop; TakeExit; Tick; Visit 1; WExit 1; Visit 2; WExit 2]) = (t, s) /\
  In OEnd t /\ sp s = SDone.
Proof. eexists _, _. split; [vm_compute; reflexivity|]. cbn. tauto. Qed.

(** ** C84: requests in flight on a connection that ends are failed *)
(** Once the endpoint has ended nobody reads what its connections report: with three connections or more, some of them wait
    for ever and never fail their requests. *)
Definition C84_three : list ev :=
  up 1 ++ up 2 ++ up 3 ++ [Stop; TakeExit; Tick; Visit 1; WExit 1; Visit 2; WExit 2; Visit 3; WExit 3] ++
  [W 1; W 1; W 2; W 2; W 3; W 3; RFail 1; R 1; K 1; K 1; K 1; RFail 2; R 2; K 2; K 2; RFail 3; R 3; K 3; K 3].
Theorem C84_refuted : exists t s, start 3 C84_three = (t, s) /\ In OEnd t /\ In (OFlush 1) (t ++ fst (step s (K 1))) /\
  never_flushed s 2 /\ never_flushed s 3 /\ cw (cn s 2) = WEnd /\ cr (cn s 2) = REnd.
Proof.
  destruct (start 3 C84_three) as [t s] eqn:E. pose proof (start_GI _ _ _ _ E) as G. exists t, s. split; [reflexivity|].
  vm_compute in E. injection E as <- <-. split; [cbn; tauto|]. split; [cbn; tauto|].
  split; [eapply jammed_never; [exact G|]; split; [reflexivity|]; split; [apply Nat.leb_le; reflexivity|reflexivity]|].
  split; [eapply jammed_never; [exact G|]; split; [reflexivity|]; split; [apply Nat.leb_le; reflexivity|reflexivity]|].
  split; reflexivity.
Qed.
Print Assumptions C84_refuted.
(** While the endpoint runs, it takes in what its connections report, and a connection both of whose halves have ended fails
    its requests. *)
Lemma take_room : forall m s, length (ch s) = m -> sp s = SIdle -> exiting s = false ->
  exists o s', run s (repeat TakeErr m) = (o, s') /\ ch s' = [] /\ cn s' = cn s.
Proof.
  induction m as [|m IH]; intros s L Sp X; cbn [repeat run].
  - exists [], s. split; [reflexivity|]. split; [now destruct (ch s)|reflexivity].
  - destruct (step s TakeErr) as [o1 s1] eqn:St. cbn [step] in St. destruct (ch s) as [|[j k] c] eqn:Ch; [discriminate|].
    assert (Y : ch s1 = c /\ sp s1 = SIdle /\ exiting s1 = false /\ cn s1 = cn s).
    { unfold server_turn in St. rewrite Sp in St. destruct (on_conn_error _ _) as [o2 s2] eqn:O.
      assert (Z2 : ch s2 = c /\ exiting s2 = false /\ cn s2 = cn s).
      { unfold on_conn_error in O. fields. destruct k; try destruct (mem _ _); injection O as <- <-; auto. }
      destruct Z2 as (Z2 & Z3 & Z4). unfold after, ok in St. rewrite Z3 in St. cbn [andb] in St. injection St as <- <-. fields. auto. }
    destruct Y as (Y1 & Y2 & Y3 & Y4). destruct (IH s1) as (o & s' & R1 & R2 & R3); auto; [cbn in L; congruence|].
    rewrite R1. eexists _, _. split; [reflexivity|]. split; congruence.
Qed.
Lemma run_app : forall a s b, run s (a ++ b) = let '(o, s1) := run s a in let '(o', s2) := run s1 b in (o ++ o', s2).
Proof.
  induction a as [|e a IH]; intros s b; cbn [app run]; [now destruct (run s b)|].
  destruct (step s e) as [o s1]. rewrite IH. destruct (run s1 a) as [o1 s2]. destruct (run s2 b) as [o2 s3]. now rewrite app_assoc.
Qed.
Theorem C84_flush_partial n es t s i : start n es = (t, s) -> sp s = SIdle -> exiting s = false -> ck (cn s i) = KMsg ->
  exists m t' s', run s (repeat TakeErr m ++ [K i; K i]) = (t', s') /\ In (OFlush i) t'.
Proof.
  intros _ Sp Ex C. destruct (take_room _ s eq_refl Sp Ex) as (o & s1 & R1 & R2 & R3).
  exists (length (ch s)). rewrite run_app, R1. cbn [run step]. unfold step_k at 1. rewrite R3, C. unfold send. rewrite R2. cbn [length Nat.ltb Nat.leb cap].
  unfold ok. fields. unfold step_k. fields. rewrite upd_same. fields. eexists _, _. split; [reflexivity|].
  apply in_or_app. right. now left.
Qed.
Print Assumptions C84_flush_partial.
Example C84_ex : exists t s, start 2 (up 1 ++ up 2 ++ fails 1 ++ [RFail 1; R 1; K 1; K 1]) = (t, s) /\
  sp s = SIdle /\ exiting s = false /\ ck (cn s 1) = KMsg.
Proof. eexists _, _. split; [vm_compute; reflexivity|]. auto. Qed.
(** In every execution a connection fails its requests only when it neither writes requests nor reads answers any more, and
    does so once. *)
Theorem C84_only_when_ended n es t s i : start n es = (t, s) -> In (OFlush i) t ->
  wdone (cn s i) /\ cr (cn s i) = REnd /\ length (filter (is_flush i) t) = 1%nat.
Proof.
  intros E X.
  assert (Y : GI t s /\ (forall j, valid3 (cn s j)) /\ (ck (cn s i) <> KEnd -> filter (is_flush i) t = []) /\
    (ck (cn s i) = KEnd -> length (filter (is_flush i) t) = 1%nat)).
  { clear X. revert E. apply (run_ind (fun t s => GI t s /\ (forall j, valid3 (cn s j)) /\ (ck (cn s i) <> KEnd -> filter (is_flush i) t = []) /\
      (ck (cn s i) = KEnd -> length (filter (is_flush i) t) = 1%nat))).
    - intros o s0 E. pose proof (GI_init _ _ _ E) as G.
      assert (V : forall j, valid3 (cn s0 j)) by (eapply cn_open3; [exact E|]; intro j; split; fields; cbn [In]; tauto).
      split; [assumption|]. split; [assumption|]. unfold s_init in E. apply (fl_open i) in E as [E1 E2]; [|reflexivity].
      rewrite E1, E2. cbn. split; [reflexivity|discriminate].
    - intros t0 s0 e o s1 (G & V & A & B) St.
      assert (N : forall j, (curId s0 < j)%nat -> cn s0 j = new_conn) by (intros j J; apply (g_new t0 s0 G j); unfold exists_conn; lia).
      split; [eapply GI_step; eauto|]. split; [eapply valid3_step; eauto|]. rewrite filter_app.
      destruct (fl_step i s0 e o s1 St V N) as [[F1 F2]|(F1 & F2 & F3)]; rewrite F1, ?app_nil_r.
      + split; intro Z; [apply A|apply B]; tauto.
      + rewrite A by (rewrite F2; discriminate). split; [congruence|reflexivity]. }
  destruct Y as (_ & V & A & B). destruct (ck (cn s i)) eqn:C;
    try (exfalso; assert (Z : In (OFlush i) (filter (is_flush i) t)) by (apply filter_In; split; [assumption|apply Nat.eqb_refl]); rewrite A in Z; [destruct Z|discriminate]).
  pose proof (v_ck _ (V i)) as Z. rewrite C in Z. tauto.
Qed.
Print Assumptions C84_only_when_ended.

(** ** C85: a client endpoint never panics *)
Theorem C85_no_panic n es t s : start n es = (t, s) -> ~ In OPanic t.
Proof. intro E. apply (start_GI n es t s E). Qed.
Print Assumptions C85_no_panic.
Example C85_ex : exists t s, start 1 [CStart 1; CDial 1 false; CSend 1; TakeErr; Tick; CStart 2; CDial 2 true; CSend 2; CSet 2;
  RFail 2; R 2; K 2; W 2; WFail 2; W 2; W 2; K 2; K 2; TakeErr; TakeErr; TakeErr; K 2] = (t, s) /\
  t = [OOpen 1; ODialErr 1; OAllDisc; OOpen 2; OUp 2; ODown 2; OAllDisc; ODead 2; OFlush 2].
Proof. eexists _, _. split; [vm_compute; reflexivity|]. reflexivity. Qed.
