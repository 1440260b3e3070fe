(** Invariants relating the history of a MultiRequest to its state. *)
From Coq Require Import List Bool Arith Lia Permutation.
Import ListNotations.
From Verif Require Import MultiModel MultiSpec MultiProofs.

Inductive reach : list obs -> st -> Prop :=
| reach0 : reach [] m_init
| reachS : forall t s e o s', reach t s -> step s e = (o, Some s') -> reach (t ++ o) s'.
Lemma run_reach : forall es t s o s', reach t s -> run s es = (o, Some s') -> reach (t ++ o) s'.
Proof.
  induction es as [|e es IH]; cbn [run]; intros t s o s' R H.
  - injection H as <- <-. rewrite app_nil_r. auto.
  - destruct (step s e) as [o1 [s1|]] eqn:E; [|discriminate]. destruct (run s1 es) as [o2 s2] eqn:F.
    injection H as <- ->. rewrite app_assoc. eapply IH; eauto. eapply reachS; eauto.
Qed.
Lemma reach_core : forall t s, reach t s -> core s.
Proof. induction 1; [apply core_init|eapply core_step; eauto]. Qed.
(** what a crashing run did before the crash *)
Lemma crash_reach : forall es t s o, reach t s -> run s es = (o, None) ->
  exists e s1 o1 o2, reach (t ++ o1) s1 /\ step s1 e = (o2, None) /\ o = o1 ++ o2.
Proof.
  induction es as [|e es IH]; cbn [run]; intros t s o R H; [discriminate|].
  destruct (step s e) as [o1 [s1|]] eqn:E.
  - destruct (run s1 es) as [o2 s2] eqn:F. injection H as <- ->.
    destruct (IH (t ++ o1) s1 o2) as (e' & s' & p & q & A & B & ->); auto. { eapply reachS; eauto. }
    exists e', s', (o1 ++ p), q. rewrite app_assoc. rewrite <- app_assoc. rewrite <- app_assoc in *. auto.
  - injection H as <-. exists e, s, [], o1. rewrite app_nil_r. auto.
Qed.

Lemma issued_app : forall a b, issued (a ++ b) = issued a ++ issued b. Proof. intros; apply flat_map_app. Qed.
Lemma performed_app : forall a b, performed (a ++ b) = performed a ++ performed b. Proof. intros; apply flat_map_app. Qed.
Lemma received_app : forall a b, received (a ++ b) = received a ++ received b. Proof. intros; apply flat_map_app. Qed.
Lemma results_app : forall a b, results (a ++ b) = results a ++ results b. Proof. intros; apply flat_map_app. Qed.

Lemma NoDup_app_snoc' : forall (l : list nat) x, NoDup l -> ~ In x l -> NoDup (l ++ [x]).
Proof. intros. apply (Permutation_NoDup (l := x :: l)); [apply Permutation_cons_append|constructor; auto]. Qed.
Definition sent (t : list obs) (s : st) : Prop := NoDup (avail t s) /\ forall i, In i (avail t s) <-> put (dp s i) = true.
Lemma sent_same : forall t s t' s', sent t s -> Permutation (avail t s) (avail t' s') -> (forall i, put (dp s' i) = put (dp s i)) -> sent t' s'.
Proof.
  intros t s t' s' [N I] P D. split; [eapply Permutation_NoDup; eauto|]. intros i. rewrite D, <- I.
  split; apply Permutation_in; auto using Permutation_sym.
Qed.
Lemma sent_add : forall t s t' s' i v, sent t s -> Permutation (i :: avail t s) (avail t' s') -> put (dp s i) = false ->
  dp s' = upd (dp s) i v -> put v = true -> sent t' s'.
Proof.
  intros t s t' s' i v [N I] P D E V. split.
  - eapply Permutation_NoDup; [exact P|]. constructor; auto. rewrite I. congruence.
  - intros j. rewrite E. transitivity (In j (i :: avail t s)); [split; apply Permutation_in; auto using Permutation_sym|].
    cbn. destruct (Nat.eq_dec j i); [subst; rewrite upd_same; tauto|]. rewrite upd_other by auto. rewrite I. intuition.
Qed.
Lemma put_upd : forall d i v, put v = put (d i) -> forall j, put (upd d i v j) = put (d j).
Proof. intros. destruct (Nat.eq_dec j i); [subst; rewrite upd_same; auto|rewrite upd_other; auto]. Qed.
(** performFailAll does not touch the responses *)
Lemma kstep_frame : forall s k o s' k', kstep s k o s' k' ->
  received o = [] /\ results o = [] /\ issued o = [] /\ resp s' = resp s /\ chq s' = chq s /\ op s' = op s /\ chan s' = chan s /\ closed s' = closed s /\ reg s' = reg s /\ rn s' = rn s /\ kp s' = kp s /\
  ~ In OEach o /\ ~ In OEOF o /\ (forall j, ~ In (OCancelled j) o) /\
  ((o = [] /\ dp s' = dp s) \/ (exists i n, k = KReq i n /\ o = [OPerform i] /\ dp s i = D0 /\ dp s' = upd (dp s) i D1)).
Proof.
  intros s k o s' k' H. destruct k; cbn [kstep] in H; try contradiction.
  6: { destruct H as [[(-> & D & ->)|(-> & D & ->)] ->]; fields; cbn; intuition (auto; try discriminate). right. exists i, n. auto. }
  all: destruct H as (-> & -> & H); fields; cbn; intuition auto.
Qed.
Lemma step_fail_frame : forall s k o s' k', step_fail s k = KNext o s' k' ->
  received o = [] /\ results o = [] /\ issued o = [] /\ resp s' = resp s /\ chq s' = chq s /\ op s' = op s /\ chan s' = chan s /\ closed s' = closed s /\ reg s' = reg s /\ rn s' = rn s /\ kp s' = kp s /\
  ~ In OEach o /\ ~ In OEOF o /\ (forall j, ~ In (OCancelled j) o) /\
  ((o = [] /\ dp s' = dp s) \/ (exists i n, k = KReq i n /\ o = [OPerform i] /\ dp s i = D0 /\ dp s' = upd (dp s) i D1)).
Proof.
  intros s k o s' k' H. eapply kstep_frame, step_fail_spec; exact H.
Qed.
Lemma step_fail_cn : forall s k o s' k', step_fail s k = KNext o s' k' -> cn s' = cn s.
Proof.
  intros s k o s' k' H. apply step_fail_spec in H. destruct k; cbn [kstep] in H; try contradiction.
  6: { destruct H as [[(_ & _ & ->)|(_ & _ & ->)] _]; auto. }
  all: destruct H as (_ & -> & _); auto.
Qed.
(** one step of Cancel, Expire, or of performFailAll on behalf of Results or Each *)
Lemma canc_frame : forall s k o s', step_canc s k = (o, Some s') ->
  (o = [] /\ s' = s) \/ exists o1 s1 k1, step_fail s (kp s k) = KNext o1 s1 k1 /\ kp s k <> KEnd /\ s' = w_kp s1 k k1 /\ (o = o1 /\ k1 <> KEnd \/ o = o1 ++ [OCancelled k] /\ k1 = KEnd).
Proof.
  intros s k o s' H. unfold step_canc, ok in H. 
  destruct (kp s k) eqn:E; try (injection H as <- <-; auto; fail).
  all: destruct (step_fail s _) as [| |o1 s1 k1] eqn:Sf in H; [discriminate|injection H as <- <-; auto|]; right; exists o1, s1, k1; split; [exact Sf|split; [discriminate|]];
    destruct k1; injection H as <- <-; split; auto; left; split; auto; discriminate.
Qed.
Lemma sent_fail : forall s k o s' k' t t' s'', sent t s -> step_fail s k = KNext o s' k' -> received t' = received t -> results t' = results t ->
  resp s'' = resp s' -> chq s'' = chq s' -> dp s'' = dp s' -> undrained s'' = undrained s -> sent t' s''.
Proof.
  intros s k o s' k' t t' s'' Sn H A B Er Eq Ed Eu. apply step_fail_frame in H.
  destruct H as (H1 & H2 & _ & H3 & H4 & _ & _ & _ & _ & _ & _ & _ & _ & _ & H5).
  apply (sent_same t s); auto.
  - unfold avail. rewrite A, B, Eq, H4, Eu. auto.
  - rewrite Ed. destruct H5 as [[_ ->]|(i & n & _ & _ & D & ->)]; auto. apply put_upd. rewrite D. auto.
Qed.

(** * Responses are not lost and not duplicated *)
Definition res_ok (t : list obs) (s : st) : Prop :=
  match results t with
  | [] => op s = OEnd -> chan s <> None
  | [l] => op s = OEnd /\ chan s = None /\ Permutation l (seq 0 (rn s)) /\ reg s = false
  | _ => False
  end.
Lemma sent_step : forall t s e o s', core s -> sent t s -> step s e = (o, Some s') -> sent (t ++ o) s'.
Proof.
  intros t s e o s' C Sn H. destruct e; cbn [step] in H; unfold ok in H.
  - destruct (op s) eqn:E; injection H as <- <-; rewrite app_nil_r; auto.
    apply (sent_same t s); fields; auto. unfold avail, undrained; fields; rewrite E. auto.
  - destruct (op s) eqn:E; injection H as <- <-; rewrite app_nil_r; auto.
    apply (sent_same t s); fields; auto. unfold avail, undrained; fields; rewrite E. auto.
  - destruct (op s) eqn:E; injection H as <- <-; rewrite app_nil_r; auto.
    apply (sent_same t s); fields; auto. unfold avail, undrained; fields; rewrite E. auto.
  - destruct (i <? rn s); [|injection H as <- <-; rewrite app_nil_r; auto].
    destruct (dp s i) eqn:E; injection H as <- <-; rewrite ?app_nil_r; auto.
    apply (sent_same t s); fields; auto; [|apply put_upd; rewrite E; auto].
    unfold avail, undrained; fields. rewrite received_app, results_app. cbn. rewrite !app_nil_r. auto.
  - destruct (kp s k); injection H as <- <-; rewrite app_nil_r; auto.
  - destruct (op s) eqn:E; try (injection H as <- <-; rewrite ?app_nil_r; auto; fail).
    destruct (chan s) eqn:Ec; [|injection H as <- <-; rewrite app_nil_r; auto].
    destruct (chq s) as [|x l] eqn:Eq.
    + destruct (closed s); injection H as <- <-; rewrite ?app_nil_r; auto.
      apply (sent_same t s); auto. unfold avail. rewrite received_app, results_app. cbn. rewrite !app_nil_r. auto.
    + injection H as <- <-.
      apply (sent_same t s); fields; auto. unfold avail, undrained; fields. rewrite received_app, results_app, Eq, E. cbn.
      rewrite !app_nil_r, <- app_assoc. cbn [app]. apply Permutation_app_head. symmetry. apply Permutation_middle.
  - unfold step_resp, ok in H. destruct (dp s i) eqn:E; try (injection H as <- <-; rewrite ?app_nil_r; auto; fail).
    + injection H as <- <-. rewrite app_nil_r. apply (sent_same t s); fields; auto. apply put_upd. rewrite E. destruct (chan s); auto.
    + destruct (lock s); [injection H as <- <-; rewrite app_nil_r; auto|]. destruct (chan s); injection H as <- <-; rewrite app_nil_r;
      (apply (sent_same t s); fields; auto; apply put_upd; rewrite E; auto).
    + injection H as <- <-. rewrite app_nil_r.
      assert (Hc : chan s = None) by (apply (m_d34 _ C i); rewrite E; auto).
      apply (sent_add t s _ _ i D4); fields; auto; [|rewrite E; auto].
      pose proof (m_ch1 _ C) as M. destruct (lock_dp s C i) as [_ Ho]; [rewrite E; auto|].
      unfold avail, undrained; fields. destruct (op s); try discriminate; rewrite !app_assoc; apply Permutation_cons_append.
    + cbn [cn rn w_cn kwait] in H. destruct ((S (cn s) =? rn s) && kwait s); injection H as <- <-; rewrite app_nil_r;
      (apply (sent_same t s); fields; auto; apply put_upd; rewrite E; auto).
    + destruct (closed s); [discriminate|]. destruct (chan s) eqn:Ec; [|injection H as <- <-; rewrite app_nil_r; auto].
      destruct (length (chq s) <? n); injection H as <- <-; rewrite app_nil_r; auto.
      apply (sent_add t s _ _ i D6); fields; auto; [|rewrite E; auto].
      unfold avail. cbn [chq undrained op resp w_dp w_chq]. change (undrained (w_dp (w_chq s (chq s ++ [i])) i D6)) with (undrained s).
      rewrite <- app_assoc. cbn [app]. rewrite !app_assoc. apply Permutation_middle.
    + injection H as <- <-. rewrite app_nil_r. apply (sent_same t s); fields; auto. apply put_upd. rewrite E. match goal with |- put (if ?b then _ else _) = _ => destruct b; auto end.
    + destruct (closed s); [discriminate|]. injection H as <- <-. rewrite app_nil_r. apply (sent_same t s); fields; auto. apply put_upd. rewrite E. auto.
    + injection H as <- <-. rewrite app_nil_r. apply (sent_same t s); fields; auto. apply put_upd. rewrite E. auto.
  - apply canc_frame in H. destruct H as [[-> ->]|(o1 & s1 & k1 & Sf & _ & -> & Ho)]; [rewrite app_nil_r; auto|].
    pose proof (step_fail_frame _ _ _ _ _ Sf) as (F1 & F2 & _ & F3 & _ & F4 & _).
    eapply (sent_fail s (kp s k) o1 s1 k1); eauto.
    + rewrite received_app. destruct Ho as [[-> _]|[-> _]]; rewrite ?received_app, F1; cbn; rewrite app_nil_r; auto.
    + rewrite results_app. destruct Ho as [[-> _]|[-> _]]; rewrite ?results_app, F2; cbn; rewrite app_nil_r; auto.
    + unfold undrained. fields. rewrite F3, F4. auto.
  - unfold step_owner, ok in H. destruct (op s) eqn:Eo.
    6: { (* OFail *)
      assert (k = KEnd \/ k <> KEnd) as [Ek|Ek] by (destruct k; auto; right; discriminate).
      { subst k. injection H as <- <-. rewrite app_nil_r. apply (sent_same t s); fields; auto. unfold avail, undrained; fields; rewrite Eo; auto. }
      assert (H' : match step_fail s k with KPanic => ([OPanicNil], None) | KBlock => ([], Some s) | KNext o s k => (o, Some (w_op s (OFail m k))) end = (o, Some s')) by (destruct k; auto; contradiction). clear H.
      destruct (step_fail s k) as [| |o1 s1 k1] eqn:Sf; [discriminate|injection H' as <- <-; rewrite app_nil_r; auto|]. injection H' as <- <-.
      pose proof (step_fail_frame _ _ _ _ _ Sf) as (F1 & F2 & _ & F3 & _).
      eapply (sent_fail s k o1 s1 k1); eauto.
      + rewrite received_app, F1, app_nil_r. auto.
      + rewrite results_app, F2, app_nil_r. auto.
      + unfold undrained. fields. rewrite F3, Eo. auto. }
    all: try (injection H as <- <-; rewrite app_nil_r; auto; apply (sent_same t s); fields; auto; unfold avail, undrained; fields; rewrite Eo; auto; fail).
    + destruct (kfail s); injection H as <- <-; (apply (sent_same t s); fields; auto; unfold avail, undrained; fields; rewrite received_app, results_app, Eo; cbn; rewrite !app_nil_r; auto).
    + unfold fail_req in H. destruct (dp s i) eqn:E; injection H as <- <-.
      2-10: apply (sent_same t s); fields; auto; unfold avail, undrained; fields; rewrite received_app, results_app, Eo; cbn; rewrite !app_nil_r; auto.
      apply (sent_same t s); fields; auto; [|apply put_upd; rewrite E; auto].
      unfold avail, undrained; fields; rewrite received_app, results_app, Eo; cbn; rewrite !app_nil_r; auto.
    + destruct (dp s i); injection H as <- <-; rewrite ?app_nil_r; auto.
      apply (sent_same t s); fields; auto. unfold avail, undrained; fields; rewrite received_app, results_app, Eo; cbn; rewrite !app_nil_r; auto.
    + injection H as <- <-. rewrite app_nil_r. apply (sent_same t s); fields; auto. unfold avail, undrained; fields; rewrite Eo. destruct (kfail s && negb (cn s =? rn s)); auto.
    + destruct (lock s); injection H as <- <-; rewrite app_nil_r; auto.
      apply (sent_same t s); fields; auto. unfold avail, undrained; fields; rewrite Eo. destruct m; auto.
    + destruct (cn s <? rn s); injection H as <- <-; rewrite app_nil_r; (apply (sent_same t s); fields; auto; unfold avail, undrained; fields; rewrite Eo; auto).
    + destruct (sig s); injection H as <- <-; rewrite app_nil_r; auto. apply (sent_same t s); fields; auto; unfold avail, undrained; fields; rewrite Eo; auto.
    + destruct (lock s); injection H as <- <-; rewrite app_nil_r; auto. apply (sent_same t s); fields; auto; unfold avail, undrained; fields; rewrite Eo; auto.
    + injection H as <- <-.
      pose proof (m_ch1 _ C) as M. unfold ch_ok in M. rewrite Eo in M. destruct (m_ch0 _ C M) as [Mq _].
      apply (sent_same t s); fields; auto. unfold avail, undrained; fields. rewrite received_app, results_app, Eo, Mq, concat_app. cbn. rewrite !app_nil_r. auto.
    + destruct l as [|x l]; [injection H as <- <-; rewrite app_nil_r; auto; apply (sent_same t s); fields; auto; unfold avail, undrained; fields; rewrite Eo; auto|].
      destruct (closed s); [discriminate|]. destruct (length (chq s) <? rn s); injection H as <- <-; rewrite app_nil_r; auto.
      apply (sent_same t s); fields; auto; unfold avail, undrained; fields; rewrite Eo. rewrite <- (app_assoc (chq s)). auto.
    + pose proof (m_drained _ C) as Md. rewrite Eo in Md.
      destruct (cn s =? rn s); injection H as <- <-; (apply (sent_same t s); fields; auto; unfold avail, undrained; fields; rewrite received_app, results_app, Eo; cbn; rewrite !app_nil_r; auto).
    + destruct (closed s); [discriminate|]. injection H as <- <-; (apply (sent_same t s); fields; auto; unfold avail, undrained; fields; rewrite received_app, results_app, Eo; cbn; rewrite !app_nil_r; auto).
Qed.
(** * What a step can change *)
Definition pre (s : st) : nat := match op s with OChk i | OReq i | OWaitReq i => i | _ => rn s end.
Definition same_core (s s' : st) : Prop := rn s' = rn s /\ cn s' = cn s /\ chan s' = chan s /\ closed s' = closed s /\ reg s' = reg s.
Inductive tr (s : st) : list obs -> st -> Prop :=
| T_stay : tr s [] s
| T_issue : op s = O0 -> tr s [] (w_op (w_rn (w_slot s (rn s) true) (S (rn s))) (OChk (rn s)))
| T_dp : forall i v s', dp s i <> D0 -> dp s i <> D8 -> v <> D0 -> (rn s' = rn s /\ chan s' = chan s /\ closed s' = closed s /\ reg s' = reg s) ->
    dp s i <> D7 -> (cn s' = cn s \/ v = D7 \/ cn s' <> rn s \/ chan s = None) -> op s' = op s -> kp s' = kp s -> dp s' = upd (dp s) i v -> tr s [] s'
| T_close : forall i, dp s i = D7 -> closed s = false -> tr s [] (w_dp (w_closed s true) i D8)
| T_unreg : forall i, dp s i = D8 -> tr s [] (w_dp (w_reg s false) i DD)
| T_perf : forall i s', dp s i = D0 -> i < rn s -> same_core s s' -> dp s' = upd (dp s) i D1 ->
    pre s' = pre s -> (op s' = OEnd <-> op s = OEnd) ->
    (forall k, kp s' k = KEnd <-> kp s k = KEnd) -> tr s [OPerform i] s'
| T_op : forall s', dp s' = dp s -> kp s' = kp s -> rn s' = rn s -> closed s' = closed s -> cn s' = cn s -> reg s' = reg s -> pre s' = pre s ->
    op s <> OEnd -> op s' <> OEnd -> (chan s' = chan s \/ op s = E3 /\ op s' <> OEnd) -> tr s [] s'
| T_issued : forall i, op s = OChk i \/ op s = OWaitReq i -> tr s [OIssued i] (w_op s O0)
| T_result : op s = R5 -> tr s [OResult (resp s)] (w_op (w_lock (w_reg (w_resp s []) false) false) OEnd)
| T_each : forall s', op s = E6 \/ op s = E7 -> op s' = OEnd -> dp s' = dp s -> kp s' = kp s -> rn s' = rn s -> chan s' = chan s -> cn s' = cn s -> reg s' = reg s ->
    (closed s = true -> closed s' = true) -> (cn s = rn s -> closed s' = true) -> tr s [OEach] s'
| T_recv : forall x l, op s = OEnd -> chan s <> None -> chq s = x :: l -> tr s [ORecv x] (w_chq s l)
| T_eof : op s = OEnd -> chan s <> None -> chq s = [] -> closed s = true -> tr s [OEOF] s
| T_kp : forall k p o s', kp s k <> KEnd -> same_core s s' -> dp s' = dp s -> op s' = op s -> kp s' = upd (kp s) k p ->
    (p <> KEnd /\ o = [] \/ p = KEnd /\ o = [OCancelled k]) -> tr s o s'.
Lemma step_tr : forall s e o s', core s -> step s e = (o, Some s') -> tr s o s'.
Proof.
  assert (Sc : forall s, same_core s s) by (unfold same_core; auto).
  intros s e o s' C H. destruct e; cbn [step] in H; unfold ok in H.
  - destruct (op s) eqn:E; injection H as <- <-; try apply T_stay. apply T_issue; auto.
  - destruct (op s) eqn:E; injection H as <- <-; try apply T_stay. apply T_op; unfold pre; fields; rewrite ?E; auto; discriminate.
  - destruct (op s) eqn:E; injection H as <- <-; try apply T_stay. apply T_op; unfold pre; fields; rewrite ?E; auto; discriminate.
  - destruct (Nat.ltb_spec i (rn s)); [|injection H as <- <-; apply T_stay].
    destruct (dp s i) eqn:E; injection H as <- <-; try apply T_stay. apply T_perf; fields; auto; try (unfold same_core; fields; auto; fail); tauto.
  - destruct (kp s k) eqn:E; injection H as <- <-; try apply T_stay. apply (T_kp s k KKind); fields; auto; try (unfold same_core; fields; auto; fail); [congruence|].
    left. split; [discriminate|auto].
  - destruct (op s) eqn:E; try (injection H as <- <-; apply T_stay).
    destruct (chan s) eqn:Ec; [|injection H as <- <-; apply T_stay].
    destruct (chq s) as [|x l] eqn:Eq.
    + destruct (closed s) eqn:Ecl; injection H as <- <-; try apply T_stay. apply T_eof; auto. congruence.
    + injection H as <- <-. apply T_recv; auto. congruence.
  - unfold step_resp, ok in H. destruct (dp s i) eqn:E; try (injection H as <- <-; apply T_stay).
    + injection H as <- <-. apply (T_dp s i (match chan s with None => D2 | _ => D5 end)); fields; auto; try (unfold same_core; fields; auto; fail); try congruence. destruct (chan s); discriminate.
    + destruct (lock s); [injection H as <- <-; apply T_stay|]. destruct (chan s) eqn:Ec; injection H as <- <-;
      [apply (T_dp s i D5)|apply (T_dp s i D3)]; fields; auto; try (unfold same_core; fields; auto; fail); congruence.
    + injection H as <- <-. apply (T_dp s i D4); fields; auto; try (unfold same_core; fields; auto; fail); congruence.
    + cbn [cn rn w_cn kwait] in H. destruct ((S (cn s) =? rn s) && kwait s); injection H as <- <-;
      (assert (Hc : chan s = None) by (apply (m_d34 _ C i); rewrite E; auto); apply (T_dp s i DD); fields; auto; try (unfold same_core; fields; auto; fail); congruence).
    + destruct (closed s); [discriminate|]. destruct (chan s) eqn:Ec; [|injection H as <- <-; apply T_stay].
      destruct (length (chq s) <? n); injection H as <- <-; [|apply T_stay].
      apply (T_dp s i D6); fields; auto; try (unfold same_core; fields; auto; fail); congruence.
    + cbn [cn rn w_cn] in H. destruct (Nat.eqb_spec (S (cn s)) (rn s)); injection H as <- <-; [apply (T_dp s i D7)|apply (T_dp s i DD)]; fields; auto; try (unfold same_core; fields; auto; fail); congruence.
    + destruct (closed s) eqn:Ecl; [discriminate|]. injection H as <- <-. apply T_close; auto.
    + injection H as <- <-. apply T_unreg; auto.
  - apply canc_frame in H. destruct H as [[-> ->]|(o1 & s1 & k1 & Sf & Nk & -> & Ho)]; [apply T_stay|].
    pose proof (step_fail_cn _ _ _ _ _ Sf) as Fc. pose proof (step_fail_frame _ _ _ _ _ Sf) as (_ & _ & _ & F1 & F2 & F3 & F4 & F5 & F6 & F7 & F8 & _ & _ & _ & F9).
    destruct F9 as [[-> F9]|(i & n & Ek & -> & F9 & F10)].
    + apply (T_kp s k k1); fields; auto; [split; fields; auto|congruence|]. destruct Ho as [[-> Q]|[-> Q]]; auto.
    + assert (K : k1 = KWait i n) by (rewrite Ek in Sf; cbn in Sf; unfold fail_req in Sf; rewrite F9 in Sf; injection Sf; auto).
      destruct Ho as [[-> Q]|[-> Q]]; [|congruence].
      pose proof (m_k _ C k) as Kk. rewrite Ek in Kk. destruct Kk as (_ & Kk & _).
      apply (T_perf s i); fields; auto; [lia|split; fields; auto|unfold pre; fields; rewrite F3; rewrite F7; auto|rewrite F3; tauto|].
      intros j. rewrite F8. destruct (Nat.eq_dec j k); [subst j; rewrite upd_same, Ek, K; split; discriminate|rewrite upd_other by auto; tauto].
  - unfold step_owner, ok in H. destruct (op s) eqn:Eo.
    6: { assert (k = KEnd \/ k <> KEnd) as [Ek|Ek] by (destruct k; auto; right; discriminate).
      { subst k. injection H as <- <-. apply T_op; unfold pre; fields; rewrite ?Eo; auto; discriminate. }
      assert (H' : match step_fail s k with KPanic => ([OPanicNil], None) | KBlock => ([], Some s) | KNext o s k => (o, Some (w_op s (OFail m k))) end = (o, Some s')) by (destruct k; auto; contradiction). clear H.
      destruct (step_fail s k) as [| |o1 s1 k1] eqn:Sf; [discriminate|injection H' as <- <-; apply T_stay|]. injection H' as <- <-.
      pose proof (step_fail_cn _ _ _ _ _ Sf) as Fc. pose proof (step_fail_frame _ _ _ _ _ Sf) as (_ & _ & _ & F1 & F2 & F3 & F4 & F5 & F6 & F7 & F8 & _ & _ & _ & F9).
      destruct F9 as [[-> F9]|(i & n & -> & -> & F9 & F10)].
      + apply T_op; fields; auto; [unfold pre; fields; rewrite Eo; auto|congruence|discriminate].
      + pose proof (m_op _ C) as Kk. unfold o_ok in Kk. rewrite Eo in Kk. destruct Kk as (_ & _ & Kk & _).
        apply (T_perf s i); fields; auto; [lia|split; fields; auto|unfold pre; fields; rewrite Eo; auto|rewrite Eo; split; discriminate|rewrite F8; tauto]. }
    all: try (injection H as <- <-; apply T_stay).
    + destruct (kfail s); injection H as <- <-; [|apply T_issued; auto]. apply T_op; unfold pre; fields; rewrite ?Eo; auto; discriminate.
    + pose proof (m_op _ C) as Mo. unfold o_ok in Mo. rewrite Eo in Mo.
      unfold fail_req in H. destruct (dp s i) eqn:E; injection H as <- <-;
      try (apply T_op; unfold pre; fields; rewrite ?Eo; auto; discriminate).
      apply T_perf; fields; auto; [lia|split; auto|unfold pre; fields; rewrite Eo; auto|rewrite Eo; split; discriminate|tauto].
    + destruct (dp s i); injection H as <- <-; try apply T_stay. apply T_issued; auto.
    + injection H as <- <-. destruct (kfail s && negb (cn s =? rn s)); apply T_op; unfold pre; fields; rewrite ?Eo; auto; discriminate.
    + destruct (lock s); injection H as <- <-; [apply T_stay|]. destruct m; apply T_op; unfold pre; fields; rewrite ?Eo; auto; discriminate.
    + injection H as <- <-. apply T_op; unfold pre; fields; rewrite ?Eo; auto; discriminate.
    + destruct (cn s <? rn s); injection H as <- <-; apply T_op; unfold pre; fields; rewrite ?Eo; auto; discriminate.
    + destruct (sig s); injection H as <- <-; [|apply T_stay]. apply T_op; unfold pre; fields; rewrite ?Eo; auto; discriminate.
    + destruct (lock s); injection H as <- <-; [apply T_stay|]. apply T_op; unfold pre; fields; rewrite ?Eo; auto; discriminate.
    + injection H as <- <-. apply T_result; auto.
    + injection H as <- <-. apply T_op; unfold pre; fields; rewrite ?Eo; auto; try discriminate. right. split; [auto|discriminate].
    + destruct l as [|x l]; [injection H as <- <-; apply T_op; unfold pre; fields; rewrite ?Eo; auto; discriminate|].
      destruct (closed s) eqn:Q; [discriminate|]. destruct (length (chq s) <? rn s); injection H as <- <-; [|apply T_stay].
      apply T_op; unfold pre; fields; rewrite ?Eo; auto; discriminate.
    + injection H as <- <-. apply T_op; unfold pre; fields; rewrite ?Eo; auto; discriminate.
    + destruct (Nat.eqb_spec (cn s) (rn s)); injection H as <- <-; [apply T_op; unfold pre; fields; rewrite ?Eo; auto; discriminate|].
      apply T_each; fields; auto.
    + destruct (closed s) eqn:Q; [discriminate|]. injection H as <- <-. apply T_each; fields; auto.
Qed.

(** * The history *)
Record TI (t : list obs) (s : st) : Prop := {
  t_core : core s;
  t_sent : sent t s;
  t_res : res_ok t s;
  t_recv : received t <> [] -> op s = OEnd /\ chan s <> None;
  t_iss : issued t = seq 0 (pre s);
  t_perf : NoDup (performed t) /\ forall i, In i (performed t) <-> dp s i <> D0;
  t_each : In OEach t <-> op s = OEnd /\ chan s <> None;
  t_canc : forall k, In (OCancelled k) t <-> kp s k = KEnd;
  t_eof : forall t1 t2, t = t1 ++ OEOF :: t2 -> Permutation (received t1) (seq 0 (rn s)) /\ op s = OEnd;
  t_late : closed s = true -> (exists i, dp s i = D8) \/ reg s = false \/ forall t1 t2, t = t1 ++ OEach :: t2 -> performed t2 = [] }.
Lemma snoc_split : forall (A : Type) (t : list A) o t1 x t2, t ++ [o] = t1 ++ x :: t2 -> (o = x /\ t1 = t /\ t2 = []) \/ exists t3, t2 = t3 ++ [o] /\ t = t1 ++ x :: t3.
Proof.
  intros A t o t1 x t2 H. destruct (exists_last (l := x :: t2)) as (y & z & E); [discriminate|].
  rewrite E, app_assoc in H. apply app_inj_tail in H as [H ->].
  destruct y as [|y0 y]; cbn in E; injection E as -> ->; [left|right].
  - rewrite app_nil_r in H. auto.
  - exists y. auto.
Qed.
Lemma avail_all : forall t s, core s -> sent t s -> cn s = rn s -> Permutation (avail t s) (seq 0 (rn s)).
Proof.
  intros t s C [N I] E. apply NoDup_Permutation; auto; [apply seq_NoDup|]. intros i. rewrite I, in_seq. split.
  - intros P. assert (dp s i <> D0) by (intros X; rewrite X in P; discriminate). pose proof (small s C i H). lia.
  - intros Hi. pose proof (all_done s C E i ltac:(lia)) as D. destruct (dp s i); cbn in *; auto; discriminate.
Qed.
Lemma TI_init : TI [] m_init.
Proof.
  constructor; cbn; auto; try discriminate.
  - apply core_init.
  - split; cbn; [constructor|]. intuition discriminate.
  - intros; contradiction.
  - split; [constructor|]. tauto.
  - split; [tauto|intros [? ?]; discriminate].
  - split; [tauto|discriminate].
  - intros t1 t2 H. destruct t1; discriminate.
Qed.
Lemma res_none : forall t s, res_ok t s -> op s <> OEnd -> results t = [].
Proof. intros t s R N. unfold res_ok in R. destruct (results t) as [|l [|]]; auto; [destruct R; contradiction|contradiction]. Qed.
Lemma TI_step : forall t s e o s', TI t s -> step s e = (o, Some s') -> TI (t ++ o) s'.
Proof.
  intros t s e o s' [C Sn Rs Rv Is [Pn Pf] Ea Ca Eo La] H.
  assert (Sn' : sent (t ++ o) s') by (eapply sent_step; eauto).
  assert (C' : core s') by (eapply core_step; eauto).
  pose proof (step_tr s e o s' C H) as T.
  pose proof (m_ch1 _ C) as M1. unfold ch_ok in M1.
  destruct T.
  - rewrite app_nil_r in *. constructor; auto.
  - rewrite app_nil_r in *. constructor; fields; auto.
    + unfold res_ok in *. fields. rewrite (res_none t s) by (auto; congruence). discriminate.
    + intros Q. destruct (Rv Q). congruence.
    + rewrite Is. unfold pre. fields. rewrite H0. auto.
    + rewrite Ea, H0. split; intros [? ?]; discriminate.
    + intros t1 t2 Q. destruct (Eo t1 t2 Q). congruence.
  - rewrite app_nil_r in *. destruct H3 as (R1 & R2 & R3 & R4). constructor; auto.
    + unfold res_ok in *. rewrite R1, R2, R4, H6. auto.
    + rewrite R2, H6. auto.
    + unfold pre in *. rewrite R1, H6. auto.
    + split; auto. intros j. rewrite Pf, H8. destruct (Nat.eq_dec j i); [subst; rewrite upd_same; tauto|rewrite upd_other by auto; tauto].
    + rewrite R2, H6. auto.
    + rewrite H7. auto.
    + rewrite R1, H6. auto.
    + rewrite R3, R4. intros Q. destruct (La Q) as [[j Hj]|[|]]; auto. left. exists j. rewrite H8, upd_other; auto. congruence.
  - rewrite app_nil_r in *. constructor; fields; auto.
    + split; auto. intros j. rewrite Pf. destruct (Nat.eq_dec j i); [subst; rewrite upd_same, H0; split; discriminate|rewrite upd_other by auto; tauto].
    + intros _. left. exists i. apply upd_same.
  - rewrite app_nil_r in *. constructor; fields; auto.
    + unfold res_ok in *. fields. destruct (results t) as [|l [|]]; auto. tauto.
    + split; auto. intros j. rewrite Pf. destruct (Nat.eq_dec j i); [subst; rewrite upd_same, H0; split; discriminate|rewrite upd_other by auto; tauto].
  - destruct H2 as (R1 & Rc & R2 & R3 & R4). constructor; auto.
    + unfold res_ok in *. rewrite results_app. cbn. rewrite app_nil_r, R1, R2, R4. destruct (results t) as [|l [|]]; auto; tauto.
    + rewrite received_app. cbn. rewrite app_nil_r, R2, H5. auto.
    + rewrite issued_app. cbn. rewrite app_nil_r, H4. auto.
    + rewrite performed_app. cbn. split.
      * apply NoDup_app_snoc'; auto. rewrite Pf. congruence.
      * intros j. rewrite in_app_iff. cbn. rewrite Pf, H3. destruct (Nat.eq_dec j i); [subst; rewrite upd_same; split; [discriminate|auto]|rewrite upd_other by auto; intuition].
    + rewrite in_app_iff. cbn. rewrite R2, H5, <- Ea. intuition discriminate.
    + intros k. rewrite in_app_iff. cbn. rewrite H6, <- Ca. intuition discriminate.
    + intros t1 t2 Q. rewrite R1, H5. apply snoc_split in Q. destruct Q as [[Q _]|(t3 & _ & ->)]; [discriminate|]. eauto.
    + rewrite R3. intros Q. pose proof (m_closed _ C Q). pose proof (not_done s C i H1). rewrite H0 in H7. cbn in H7. lia.
  - rewrite app_nil_r in *.
    assert (Ea' : ~ In OEach t) by (rewrite Ea; tauto).
    constructor; auto.
    + unfold res_ok. rewrite (res_none t s) by auto. contradiction.
    + intros Q. destruct (Rv Q). contradiction.
    + rewrite H6. auto.
    + rewrite H0. auto.
    + tauto.
    + rewrite H1. auto.
    + intros t1 t2 Q. destruct (Eo t1 t2 Q). contradiction.
    + intros _. right. right. intros t1 t2 ->. exfalso. apply Ea'. apply in_elt.
  - assert (On : op s <> OEnd) by (destruct H0; congruence).
    assert (Ea' : ~ In OEach t) by (rewrite Ea; tauto).
    constructor; fields; auto.
    + unfold res_ok. rewrite results_app, (res_none t s) by auto. cbn. discriminate.
    + rewrite received_app. cbn. rewrite app_nil_r. intros Q. destruct (Rv Q). contradiction.
    + rewrite issued_app, Is. cbn. pose proof (m_op _ C) as Mo. unfold o_ok, pre in *. fields.
      destruct H0 as [E|E]; rewrite E in *.
      * rewrite Mo. rewrite seq_S. auto.
      * destruct Mo as [-> _]. rewrite seq_S. auto.
    + rewrite performed_app. cbn. rewrite app_nil_r. auto.
    + rewrite in_app_iff. cbn. split; [intuition discriminate|intros [? ?]; discriminate].
    + intros k. rewrite in_app_iff. cbn. rewrite <- Ca. intuition discriminate.
    + intros t1 t2 Q. apply snoc_split in Q. destruct Q as [[Q _]|(t3 & _ & ->)]; [discriminate|]. destruct (Eo t1 t3 eq_refl). contradiction.
    + intros _. right. right. intros t1 t2 Q. apply snoc_split in Q. destruct Q as [[Q _]|(t3 & _ & ->)]; [discriminate|]. exfalso. apply Ea'. apply in_elt.
  - assert (On : op s <> OEnd) by congruence.
    assert (Ea' : ~ In OEach t) by (rewrite Ea; tauto).
    rewrite H0 in M1. pose proof (m_op _ C) as Mo. unfold o_ok in Mo. rewrite H0 in Mo.
    assert (received t = []) as Rn. { destruct (received t) eqn:Q; auto. destruct Rv; [discriminate|congruence]. }
    constructor; fields; auto.
    + unfold res_ok. rewrite results_app, (res_none t s) by auto. cbn. fields. split; auto. split; auto. split; auto.
      pose proof (avail_all t s C Sn Mo) as P. unfold avail in P. rewrite Rn, (res_none t s) in P by auto. destruct (m_ch0 _ C M1) as [Qe _].
      rewrite Qe in P. unfold undrained in P. rewrite H0 in P. auto.
    + rewrite received_app, Rn. cbn. contradiction.
    + rewrite issued_app. cbn. rewrite app_nil_r, Is. unfold pre. fields. rewrite H0. auto.
    + rewrite performed_app. cbn. rewrite app_nil_r. auto.
    + rewrite in_app_iff. cbn. split; [intuition discriminate|]. intros [_ Q]. contradiction.
    + intros k. rewrite in_app_iff. cbn. rewrite <- Ca. intuition discriminate.
    + intros t1 t2 Q. apply snoc_split in Q. destruct Q as [[Q _]|(t3 & _ & ->)]; [discriminate|]. destruct (Eo t1 t3 eq_refl). contradiction.
  - assert (On : op s <> OEnd) by (destruct H0; congruence).
    assert (Ea' : ~ In OEach t) by (rewrite Ea; tauto).
    assert (Ch : chan s <> None) by (destruct H0 as [E|E]; rewrite E in M1; congruence).
    constructor; fields; auto.
    + unfold res_ok. rewrite results_app, (res_none t s) by auto. cbn. rewrite H5. auto.
    + rewrite H1, H5. auto.
    + rewrite issued_app. cbn. rewrite app_nil_r, Is. unfold pre. rewrite H1, H4. destruct H0 as [E|E]; rewrite E; auto.
    + rewrite performed_app, H2. cbn. rewrite app_nil_r. auto.
    + rewrite in_app_iff. cbn. rewrite H1, H5. tauto.
    + intros k. rewrite in_app_iff. cbn. rewrite H3, <- Ca. intuition discriminate.
    + intros t1 t2 Q. apply snoc_split in Q. destruct Q as [[Q _]|(t3 & _ & ->)]; [discriminate|]. destruct (Eo t1 t3 eq_refl). contradiction.
    + intros _. right. right. intros t1 t2 Q. apply snoc_split in Q. destruct Q as [(_ & _ & ->)|(t3 & _ & ->)]; [auto|]. exfalso. apply Ea'. apply in_elt.
  - constructor; fields; auto.
    + unfold res_ok in *. rewrite results_app. cbn. rewrite app_nil_r. fields. auto.
    + rewrite issued_app. cbn. rewrite app_nil_r. auto.
    + rewrite performed_app. cbn. rewrite app_nil_r. auto.
    + rewrite in_app_iff, Ea. cbn. intuition discriminate.
    + intros k. rewrite in_app_iff, Ca. cbn. intuition discriminate.
    + intros t1 t2 Q. apply snoc_split in Q. destruct Q as [[Q _]|(t3 & _ & ->)]; [discriminate|]. eauto.
    + intros Q. destruct (La Q) as [|[|L]]; auto. right. right. intros t1 t2 X. apply snoc_split in X. destruct X as [[X _]|(t3 & -> & ->)]; [discriminate|].
      rewrite performed_app, (L t1 t3 eq_refl). auto.
  - constructor; fields; auto.
    + unfold res_ok in *. rewrite results_app. cbn. rewrite app_nil_r. auto.
    + rewrite issued_app. cbn. rewrite app_nil_r. auto.
    + rewrite performed_app. cbn. rewrite app_nil_r. auto.
    + rewrite in_app_iff, Ea. cbn. intuition discriminate.
    + intros k. rewrite in_app_iff, Ca. cbn. intuition discriminate.
    + intros t1 t2 Q. apply snoc_split in Q. destruct Q as [(_ & -> & _)|(t3 & _ & ->)]; [|eauto]. split; auto.
      pose proof (avail_all t s C Sn (m_closed _ C H3)) as P. unfold avail in P.
      assert (results t = []) as Rn. { unfold res_ok in Rs. destruct (results t) as [|l1 [|]]; auto; [|contradiction]. destruct Rs as (_ & Q & _). contradiction. }
      pose proof (m_drained _ C) as Md. rewrite H0 in Md.
      rewrite Rn, H2 in P. unfold undrained in P. rewrite H0, Md in P. cbn in P. rewrite app_nil_r in P. auto.
    + intros Q. destruct (La Q) as [|[|L]]; auto. right. right. intros t1 t2 X. apply snoc_split in X. destruct X as [[X _]|(t3 & -> & ->)]; [discriminate|].
      rewrite performed_app, (L t1 t3 eq_refl). auto.
  - destruct H1 as (R1 & Rc & R2 & R3 & R4).
    assert (Oe : o = [] \/ o = [OCancelled k]) by (destruct H5 as [[_ ->]|[_ ->]]; auto).
    constructor; auto.
    + unfold res_ok in *. rewrite results_app. destruct Oe as [-> | ->]; cbn; rewrite app_nil_r, R1, R2, R4, H3; auto.
    + rewrite received_app. destruct Oe as [-> | ->]; cbn; rewrite app_nil_r, R2, H3; auto.
    + rewrite issued_app. unfold pre in *. destruct Oe as [-> | ->]; cbn; rewrite app_nil_r, R1, H3; auto.
    + rewrite performed_app, H2. destruct Oe as [-> | ->]; cbn; rewrite app_nil_r; auto.
    + rewrite in_app_iff, R2, H3, Ea. destruct Oe as [-> | ->]; cbn; intuition discriminate.
    + intros j. rewrite in_app_iff, Ca, H4. destruct H5 as [[Q ->]|[-> ->]]; cbn;
      (destruct (Nat.eq_dec j k); [subst j; rewrite upd_same|rewrite upd_other by auto]); intuition congruence.
    + rewrite R1, H3. intros t1 t2 Q. destruct Oe as [-> | ->]; [rewrite app_nil_r in Q; eauto|].
      apply snoc_split in Q. destruct Q as [[Q _]|(t3 & _ & ->)]; [discriminate|]. eauto.
    + rewrite R3, R4, H2. intros Q. destruct (La Q) as [|[|L]]; auto. right. right. intros t1 t2 X.
      destruct Oe as [-> | ->]; [rewrite app_nil_r in X; eauto|]. apply snoc_split in X. destruct X as [[X _]|(t3 & -> & ->)]; [discriminate|].
      rewrite performed_app, (L t1 t3 eq_refl). auto.
Qed.
Lemma reach_TI : forall t s, reach t s -> TI t s.
Proof. induction 1; [apply TI_init|eapply TI_step; eauto]. Qed.
