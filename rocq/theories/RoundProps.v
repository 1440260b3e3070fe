(** Properties C126-C129: a MultiRequest used in rounds, its context and its timer. *)
From Coq Require Import List Bool Arith Lia Permutation.
Import ListNotations.
From Verif Require Import MultiModel MultiSpec MultiProofs MultiTrace MultiLive RoundModel RoundSpec RoundProofs.

(** * C126 After Results a MultiRequest can be used again *)
(** a call of Results gives one response for each request made since the call before *)
Theorem C126_results_of_a_round : forall es t so, rrun r_init es = (t, so) -> not_after_each r_init es ->
  forall t0 t1 l t2, t = t0 ++ t1 ++ OResult l :: t2 -> (t0 = [] \/ exists u l0, t0 = u ++ [OResult l0]) -> results t1 = [] ->
  Permutation l (issued t1).
Proof.
  intros es t so H N t0 t1 l t2 E F Z. destruct (rrun_hist es t so H N) as [A _].
  assert (P : Permutation (given t0 ++ l) (issued t0 ++ issued t1)).
  { rewrite <- issued_app. specialize (A (t0 ++ t1) l t2). unfold given in *. rewrite results_app, Z, app_nil_r in A. apply A. rewrite E, app_assoc. reflexivity. }
  destruct F as [->|(u & l0 & ->)]; [exact P|].
  assert (P0 : Permutation (given (u ++ [OResult l0])) (issued (u ++ [OResult l0]))).
  { unfold given. rewrite results_app, issued_app, concat_app. cbn. rewrite !app_nil_r. apply (A u l0 (t1 ++ OResult l :: t2)). rewrite E, <- app_assoc. reflexivity. }
  apply (Permutation_app_inv_l (given (u ++ [OResult l0]))). rewrite P. apply Permutation_app_tail. symmetry. exact P0.
Qed.
Print Assumptions C126_results_of_a_round.
(** it returns as soon as these requests are completed *)
Theorem C126_results_returns : forall es t s, rrun r_init es = (t, Some s) -> not_after_each r_init es -> rstuck s -> all_performed t -> user_free (base s).
Proof.
  intros es t s H N K A. apply (RI_rest t); auto. apply rreach_RI. exact (rrun_reach es [] r_init t s rreach0 N H).
Qed.
Print Assumptions C126_results_returns.
Theorem C126_all_calls_end : forall es t s, rrun r_init es = (t, Some s) -> not_after_each r_init es -> exists n, forall fs, effective (base s) fs -> length fs <= n.
Proof.
  intros es t s H N. pose proof (rrun_reach es [] r_init t s rreach0 N H) as R. destruct (ridle _ _ R) as [n Hn].
  exists (work n (base s)). intros fs F. exact (reffective_bound n fs _ (base s) (rreach_RI _ _ R) Hn F).
Qed.
Print Assumptions C126_all_calls_end.
(** requests are completed once, and Each may end the last round *)
Theorem C126_each_after_results : forall es t so, rrun r_init es = (t, so) -> not_after_each r_init es ->
  forall t1 t2, t = t1 ++ OEOF :: t2 -> Permutation (given t1 ++ received t1) (issued t1).
Proof. intros es t so H N. apply (rrun_hist es t so H N). Qed.
Print Assumptions C126_each_after_results.

Definition own (n : nat) : list rev := repeat (B Owner) n.
Definition resp_ (i n : nat) : list rev := repeat (B (MultiModel.Resp i)) n.
(** two requests, Results; one more, Results waits for it; two more, drained with Each *)
Definition ex126 : list rev :=
  [B Issue] ++ own 1 ++ [B Issue] ++ own 1 ++ [B (Answer 1)] ++ resp_ 1 4 ++ [B Results] ++ own 4 ++ [B (Answer 0)] ++ resp_ 0 4 ++ own 4 ++
  [Again; B Issue] ++ own 1 ++ [B Results] ++ own 4 ++ [B (Answer 2)] ++ resp_ 2 4 ++ own 4 ++
  [Again; B Issue] ++ own 1 ++ [B (Answer 3)] ++ resp_ 3 4 ++ [B Issue] ++ own 1 ++ [B Each] ++ own 8 ++ [B (Answer 4)] ++ resp_ 4 5 ++ [B Take; B Take; B Take].
Example C126_example : exists s, rrun r_init ex126 =
  ([OIssued 0; OIssued 1; OPerform 1; OPerform 0; OResult [1; 0]; OIssued 2; OPerform 2; OResult [2]; OIssued 3; OPerform 3; OIssued 4; OEach; OPerform 4; ORecv 3; ORecv 4; OEOF], Some s)
  /\ not_after_each r_init ex126.
Proof. eexists. split; [vm_compute; reflexivity|]. apply naeb_ok. vm_compute. reflexivity. Qed.

(** * C127 After Each a MultiRequest can be used again *)
Definition ex127a : list rev :=
  [B Issue] ++ own 1 ++ [B (Answer 0)] ++ resp_ 0 4 ++ [B Each] ++ own 8 ++ [B Take; B Take; Again; B Issue] ++ own 1 ++ [B (Answer 1)] ++ resp_ 1 2.
(** false: the response of a request made after the channel was closed crashes the program *)
Theorem C127_request_after_each_refuted : exists es t, rrun r_init es = (t, None) /\
  t = [OIssued 0; OPerform 0; OEach; ORecv 0; OEOF; OIssued 1; OPerform 1; OPanicSend].
Proof. exists ex127a. eexists. vm_compute. auto. Qed.
Print Assumptions C127_request_after_each_refuted.
Definition asleep (s : st) : Prop := op s = RW /\ sig s = false /\ chan s <> None /\ forall i, dp s i <> D3 /\ dp s i <> D4.
Lemma asleep_step : forall s e o s', asleep s -> step s e = (o, Some s') -> asleep s' /\ results o = [].
Proof.
  intros s e o s' (A & Sf0 & C & D) H. destruct e as [| | |i|j| |i|j|]; cbn [step] in H; unfold ok in H; try rewrite A in H.
  - injection H as <- <-. unfold asleep. auto.
  - injection H as <- <-. unfold asleep. auto.
  - injection H as <- <-. unfold asleep. auto.
  - destruct (i <? rn s); [|injection H as <- <-; unfold asleep; auto]. destruct (dp s i) eqn:E; injection H as <- <-; (split; [|auto]); unfold asleep; fields; auto.
    repeat split; auto; destruct (Nat.eq_dec i0 i); try (subst; rewrite upd_same; discriminate); rewrite upd_other by auto; apply D.
  - destruct (kp s j); injection H as <- <-; split; auto; unfold asleep; fields; auto.
  - injection H as <- <-. unfold asleep. auto.
  - assert (P : forall s1 v, op s1 = op s -> sig s1 = sig s -> chan s1 = chan s -> dp s1 = upd (dp s) i v -> v <> D3 -> v <> D4 -> asleep s1).
    { intros s1 v E1 E2 E3 E4 V1 V2. unfold asleep. rewrite E1, E2, E3, E4. repeat split; auto; destruct (Nat.eq_dec i0 i); try (subst; rewrite upd_same; auto); rewrite upd_other by auto; apply D. }
    unfold step_resp, ok in H. destruct (D i) as [D3' D4']. destruct (dp s i) eqn:E; try contradiction; try (injection H as <- <-; unfold asleep; auto; fail).
    + injection H as <- <-. split; auto. destruct (chan s) eqn:Ec; [|contradiction]. apply (P _ D5); fields; auto; try discriminate.
    + destruct (lock s); [injection H as <- <-; unfold asleep; auto|]. destruct (chan s) eqn:Ec; [|contradiction]. injection H as <- <-. split; auto. apply (P _ D5); fields; auto; discriminate.
    + destruct (closed s); [discriminate|]. destruct (chan s) eqn:Ec; [|contradiction]. destruct (length (chq s) <? n); injection H as <- <-; split; auto; [|unfold asleep; rewrite Ec; auto].
      apply (P _ D6); fields; auto; discriminate.
    + cbn [cn rn w_cn] in H. destruct (S (cn s) =? rn s); injection H as <- <-; split; auto; [apply (P _ D7)|apply (P _ DD)]; fields; auto; discriminate.
    + destruct (closed s); [discriminate|]. injection H as <- <-. split; auto. apply (P _ D8); fields; auto; discriminate.
    + injection H as <- <-. split; auto. apply (P _ DD); fields; auto; discriminate.
  - apply canc_frame in H. destruct H as [[-> ->]|(o1 & s1 & k1 & Sf & _ & -> & Ho)]; [unfold asleep; auto|].
    pose proof (step_fail_frame _ _ _ _ _ Sf) as (_ & F1 & _ & _ & _ & F2 & F3 & _ & _ & _ & _ & _ & _ & _ & F4).
    assert (Sg : sig s1 = sig s).
    { destruct (kp s j); cbn [step_fail] in Sf; try discriminate; try (injection Sf as <- <- <-; auto; fail).
      - destruct (lock s); [discriminate|]. injection Sf as <- <- <-. auto.
      - destruct (i <? n); [destruct (slots s i)|]; injection Sf as <- <- <-; auto.
      - destruct (slots s i); [|discriminate]. injection Sf as <- <- <-. auto.
      - unfold fail_req in Sf. destruct (dp s i); injection Sf as <- <- <-; auto.
      - destruct (dp s i); try discriminate. injection Sf as <- <- <-. auto. }
    split.
    + unfold asleep. fields. rewrite F2, Sg, F3. split; auto. split; auto. split; auto. intros i.
      destruct F4 as [[_ ->]|(x & n & _ & _ & _ & ->)]; [apply D|]. destruct (Nat.eq_dec i x); [subst; rewrite upd_same; split; discriminate|rewrite upd_other by auto; apply D].
    + destruct Ho as [[-> _]|[-> _]]; [auto|]. rewrite results_app, F1. reflexivity.
  - unfold step_owner, ok in H. rewrite A, Sf0 in H. injection H as <- <-. unfold asleep. auto.
Qed.
Lemma asleep_run : forall es s o so, asleep (base s) -> rrun s es = (o, so) -> results o = [].
Proof.
  induction es as [|e es IH]; cbn [rrun]; intros s o so A H; [injection H as <- <-; auto|].
  destruct (rstep s e) as [o1 [s1|]] eqn:E.
  - destruct (rrun s1 es) as [o2 s2] eqn:F. injection H as <- <-. rewrite results_app.
    destruct (base_step s e o1 s1 E) as [(e' & Es & _)|[[-> Es]|(_ & X & _)]]; [| |destruct A as [A _]; congruence].
    + destruct (asleep_step _ _ _ _ A Es) as [A1 ->]. apply (IH s1 o2 s2); auto.
    + apply (IH s1 o2 s2); auto. rewrite Es. auto.
  - injection H as <- <-. destruct (base_crash s e o1 E) as [e' E']. apply crash_obs in E'. destruct E' as [->|[->| ->]]; reflexivity.
Qed.
Definition ex127b : list rev := [B Issue] ++ own 1 ++ [B Each] ++ own 8 ++ [Again; B Results] ++ own 5.
(** false: Results called after Each, with a response still to come, never returns, whatever happens *)
Theorem C127_results_after_each_refuted : exists es t s, rrun r_init es = (t, Some s) /\ t = [OIssued 0; OEach] /\ waiting s /\
  forall es' t' so, rrun s es' = (t', so) -> results t' = [].
Proof.
  exists ex127b. destruct (rrun r_init ex127b) as [t [s|]] eqn:E; [|vm_compute in E; discriminate].
  assert (A : t = [OIssued 0; OEach] /\ op (base s) = RW /\ sig (base s) = false /\ chan (base s) = Some 1 /\ dp (base s) = fun _ => D0).
  { vm_compute in E. injection E as <- <-. vm_compute. auto. }
  destruct A as (A1 & A2 & A3 & A4 & A5). exists t, s. split; [reflexivity|]. split; [exact A1|]. split; [exact A2|].
  intros es' t' so. apply asleep_run. unfold asleep. rewrite A2, A3, A4, A5. repeat split; auto; discriminate.
Qed.
Print Assumptions C127_results_after_each_refuted.
(** what holds: until Each was called the MultiRequest can be used as often as wanted, and neither the channel nor Results gives a response twice or one that was not asked for *)
Theorem C127_before_each_partial : forall es t so, rrun r_init es = (t, so) -> not_after_each r_init es ->
  forall t1 x t2, t = t1 ++ x :: t2 ->
  match x with
  | OResult l => Permutation (given t1 ++ l) (issued t1)
  | OEOF => Permutation (given t1 ++ received t1) (issued t1)
  | _ => True
  end.
Proof.
  intros es t so H N t1 x t2 E. destruct (rrun_hist es t so H N) as [A B']. destruct x; auto; [exact (A t1 l t2 E)|exact (B' t1 t2 E)].
Qed.
Print Assumptions C127_before_each_partial.

(** * C128 A context knows the MultiRequests with unfinished requests *)
Theorem C128_registered_partial : forall es t s, rrun r_init es = (t, Some s) -> once es ->
  forall i, In i (issued t) -> ~ In i (performed t) -> reg (base s) = true.
Proof.
  intros es t s H N i I P. destruct (reg (base s)) eqn:E; auto. exfalso.
  destruct (rrun_once es r_init t s core_init OB_init OT_init N H) as [(_ & _ & B') _]. destruct (B' E) as [C _].
  pose proof (rreach_RI _ _ (rrun_reach es [] r_init t s rreach0 (once_not_after es r_init N) H)) as R. cbn [app] in R.
  apply P. apply (ri_perf _ _ R). pose proof (all_done _ (ri_core _ _ R) C i) as D.
  rewrite (ri_iss _ _ R) in I. apply in_seq in I.
  assert (L : pre (base s) <= rn (base s)).
  { pose proof (m_op _ (ri_core _ _ R)) as Mo. unfold o_ok in Mo. unfold pre. destruct (op (base s)); lia. }
  intros Z. rewrite Z in D. cbn in D. lia.
Qed.
Print Assumptions C128_registered_partial.
Definition ex128 : list rev :=
  [B Issue] ++ own 1 ++ [B (Answer 0)] ++ resp_ 0 4 ++ [B Results] ++ own 5 ++ [Again; B Issue] ++ own 1.
(** false in the second round: Results has taken the MultiRequest off the list of its context, and nothing puts it back, so that cancelling the context does not reach the request *)
Theorem C128_second_round_refuted : exists es t s, rrun r_init es = (t, Some s) /\ not_after_each r_init es /\
  t = [OIssued 0; OPerform 0; OResult [0]; OIssued 1] /\ reg (base s) = false.
Proof. exists ex128. eexists. eexists. split; [vm_compute; reflexivity|]. split; [|split; reflexivity]. apply naeb_ok. vm_compute. reflexivity. Qed.
Print Assumptions C128_second_round_refuted.
Example C128_example : exists es t s, rrun r_init es = (t, Some s) /\ once es /\ t = [OIssued 0; OIssued 1; OPerform 0] /\ reg (base s) = true.
Proof.
  exists ([B Issue] ++ own 1 ++ [B Issue] ++ own 1 ++ [B (Answer 0)] ++ resp_ 0 4). eexists. eexists. split; [vm_compute; reflexivity|]. split; [|split; reflexivity].
  unfold once. cbn. intuition discriminate.
Qed.

(** * C129 The timeout of a MultiRequest is kept *)
(** at rest, a MultiRequest with a timeout has all its requests completed, or its timer is pending *)
Theorem C129_pending_partial : forall es t s, rrun r_init es = (t, Some s) -> once es -> tset s = true -> rstuck s ->
  all_performed t \/ armed s = true.
Proof.
  intros es t s H N T K. destruct (rrun_once es r_init t s core_init OB_init OT_init N H) as [_ Ot].
  pose proof (rreach_RI _ _ (rrun_reach es [] r_init t s rreach0 (once_not_after es r_init N) H)) as R. cbn [app] in R.
  destruct (Ot T) as [X|[[k X]|[X Y]]]; auto; left.
  - exact (RI_cancelled t (base s) k R K X).
  - intros i I. apply (ri_perf _ _ R). rewrite (ri_iss _ _ R) in I. apply in_seq in I. pose proof (all_done _ (ri_core _ _ R) X i) as D.
    unfold pre in I. intros Z. rewrite Z in D. cbn in D. destruct (op (base s)); cbn in Y; try tauto; lia.
Qed.
Print Assumptions C129_pending_partial.
(** when the timer expires all requests, also those made later, come to be completed *)
Theorem C129_expiry : forall es k es' t s u v, rrun r_init es = (t, Some s) -> armed s = true -> kp (base s) k = KIdle ->
  rrun r_init (es ++ Fire k :: es') = (u, Some v) -> not_after_each r_init (es ++ Fire k :: es') -> rstuck v -> all_performed u.
Proof.
  intros es k es' t s u v H A Kp G N K.
  pose proof (rreach_RI _ _ (rrun_reach _ [] r_init u v rreach0 N G)) as R. cbn [app] in R.
  apply (RI_cancelled u (base v) k R K).
  assert (L : forall fs a x b, rrun a fs = (x, Some b) -> kp (base a) k <> KIdle -> kp (base b) k <> KIdle).
  { induction fs as [|e fs IH]; cbn [rrun]; intros a x b F Nk; [injection F as <- <-; auto|].
    destruct (rstep a e) as [o1 [a1|]] eqn:E; [|discriminate]. destruct (rrun a1 fs) as [o2 b2] eqn:F2. injection F as <- ->.
    apply (IH a1 o2 b F2). destruct (base_step a e o1 a1 E) as [(e' & Es & _)|[[-> Es]|(-> & _ & -> & Es)]]; [exact (kp_live _ _ _ _ k Es Nk)|rewrite Es; auto|rewrite Es; auto]. }
  assert (Sp : forall fs a gs x b y, rrun a fs = (x, Some b) -> rrun a (fs ++ gs) = (y, Some v) -> exists z, rrun b gs = (z, Some v)).
  { induction fs as [|e fs IH]; cbn [rrun app]; intros a gs x b y F1 F2; [injection F1 as <- <-; eauto|].
    destruct (rstep a e) as [o1 [a1|]] eqn:E; [|discriminate]. destruct (rrun a1 fs) as [o2 b2] eqn:F3. injection F1 as <- ->.
    destruct (rrun a1 (fs ++ gs)) as [o4 b4] eqn:F4. injection F2 as <- ->. eapply IH; eauto. }
  destruct (Sp es r_init (Fire k :: es') t s u H G) as [z Hz]. cbn [rrun rstep] in Hz. rewrite A, Kp in Hz. cbn [step] in Hz. rewrite Kp in Hz. cbn [ok lift] in Hz.
  destruct (rrun _ es') as [o2 b2] eqn:F in Hz. injection Hz as _ ->. apply (L es' _ o2 v F). cbn. rewrite upd_same. discriminate.
Qed.
Print Assumptions C129_expiry.
Definition ex129 : list rev :=
  [SetTimeout; B Issue] ++ own 1 ++ [B Results] ++ own 4 ++ [B (Answer 0)] ++ resp_ 0 4 ++ own 4 ++ [Again; SetTimeout; B Issue] ++ own 1 ++ [B Results] ++ own 4.
Lemma dead_step : forall s e o s', on_its_own e -> armed s = false -> tset s = true -> op (base s) = RW -> kfail (base s) = false -> (forall k, kp (base s) k = KIdle) ->
  (forall i, i <> 0 -> dp (base s) i = D0) -> dp (base s) 0 = DD -> sig (base s) = false -> rstep s e = (o, Some s') -> o = [] /\ s' = s.
Proof.
  intros s e o s' I A T Op Kf Kp D Dd Sg H. destruct e as [e| | |k]; cbn [on_its_own] in I; try contradiction.
  - assert (step (base s) e = ([], Some (base s))) as St.
    { destruct e; try contradiction; cbn [step].
      - unfold step_resp, ok. destruct (Nat.eq_dec i 0); [subst; rewrite Dd|rewrite D by auto]; auto.
      - unfold step_canc, ok. rewrite Kp. auto.
      - unfold step_owner, ok. rewrite Op, Sg. auto. }
    assert (W : w_base s (base s) = s) by (destruct s; reflexivity).
    destruct e; try contradiction; cbn [rstep] in H.
    + assert (stops (base s) i = false) as Ns by (unfold stops; destruct (Nat.eq_dec i 0); [subst; rewrite Dd|rewrite D by auto]; auto).
      rewrite Ns, St in H. cbn [lift] in H. rewrite W in H. injection H as <- <-. auto.
    + rewrite St in H. cbn [lift] in H. rewrite W in H. injection H as <- <-. auto.
    + rewrite St in H. cbn [lift] in H. rewrite W in H. injection H as <- <-. auto.
  - cbn [rstep] in H. rewrite Op in H. injection H as <- <-. auto.
  - cbn [rstep] in H. rewrite A in H. injection H as <- <-. auto.
Qed.
(** false in the second round: the end of the first stopped the timer for good; a request made afterwards, with the timeout asked for again, is waited for for ever *)
Theorem C129_second_round_refuted : exists es t s, rrun r_init es = (t, Some s) /\ not_after_each r_init es /\
  t = [OIssued 0; OPerform 0; OResult [0]; OIssued 1] /\ tset s = true /\ inherits s 1 = true /\ waiting s /\
  forall es' t' s', Forall on_its_own es' -> rrun s es' = (t', Some s') -> t' = [] /\ s' = s.
Proof.
  exists ex129. destruct (rrun r_init ex129) as [t [s|]] eqn:E; [|vm_compute in E; discriminate].
  assert (A : t = [OIssued 0; OPerform 0; OResult [0]; OIssued 1] /\ tset s = true /\ inherits s 1 = true /\ op (base s) = RW /\ armed s = false /\ kfail (base s) = false /\
    (forall k, kp (base s) k = KIdle) /\ (forall i, i <> 0 -> dp (base s) i = D0) /\ dp (base s) 0 = DD /\ sig (base s) = false).
  { vm_compute in E. injection E as <- <-. cbn. repeat split. intros i N. destruct i; [contradiction|reflexivity]. }
  destruct A as (A1 & A2 & A3 & A4 & A5 & A6 & A7 & A8 & A9 & A10). exists t, s. split; [reflexivity|]. split; [clear; apply naeb_ok; vm_compute; reflexivity|].
  split; [exact A1|]. split; [exact A2|]. split; [exact A3|]. split; [exact A4|].
  intros es'. induction es' as [|e es' IH]; cbn [rrun]; intros t' s' F H; [injection H as <- <-; auto|].
  inversion F as [|x y F1 F2]; subst x y. destruct (rstep s e) as [o1 [s1|]] eqn:Es; [|discriminate].
  destruct (dead_step s e o1 s1 F1 A5 A2 A4 A6 A7 A8 A9 A10 Es) as [-> ->]. destruct (rrun s es') as [o2 s2] eqn:G. injection H as <- ->. exact (IH o2 s' F2 eq_refl).
Qed.
Print Assumptions C129_second_round_refuted.
(** a request that stays unanswered, and the expiry *)
Example C129_example : exists t s t' s', let es := [SetTimeout; B Issue] ++ own 1 ++ [B Results] ++ own 4 in
  rrun r_init es = (t, Some s) /\ tset s = true /\ armed s = true /\ waiting s /\ once es /\
  rrun s ([Fire 7] ++ repeat (B (Canc 7)) 6 ++ resp_ 0 4 ++ own 5) = (t', Some s') /\ t' = [OPerform 0; OResult [0]].
Proof. do 4 eexists. cbv zeta. split; [vm_compute; reflexivity|]. split; [reflexivity|]. split; [reflexivity|]. split; [reflexivity|]. split; [unfold once; cbn; intuition discriminate|]. split; [vm_compute; reflexivity|reflexivity]. Qed.

(** * C130 A finished MultiRequest holds no timer *)
(** when Results had to wait, the timer is off when it returns *)
Theorem C130_waited_partial : forall es t s es' t' s', rrun r_init es = (t, Some s) -> waiting s -> rrun s es' = (t', Some s') -> ~ In SetTimeout es' ->
  results t' <> [] -> armed s' = false.
Proof.
  intros es t s es' t' s' H W G N Rs. apply (waited_run es' s t' s'); auto. apply (WT_run es r_init t s); auto. intros Q; discriminate.
Qed.
Print Assumptions C130_waited_partial.
Definition ex130 (m : ev) : list rev := [SetTimeout; B Issue] ++ own 1 ++ [B (Answer 0)] ++ resp_ 0 4 ++ [B m] ++ own 8.
(** false when everything was answered before Results or Each is called: nobody stops the timer *)
Theorem C130_answered_before_refuted :
  (exists t s, rrun r_init (ex130 Results) = (t, Some s) /\ t = [OIssued 0; OPerform 0; OResult [0]] /\ armed s = true) /\
  (exists t s, rrun r_init (ex130 Each ++ [B Take; B Take]) = (t, Some s) /\ t = [OIssued 0; OPerform 0; OEach; ORecv 0; OEOF] /\ armed s = true).
Proof. split; eexists; eexists; (split; [vm_compute; reflexivity|split; reflexivity]). Qed.
Print Assumptions C130_answered_before_refuted.
Example C130_example : exists t s t' s', let es := [SetTimeout; B Issue] ++ own 1 ++ [B Results] ++ own 4 in
  rrun r_init es = (t, Some s) /\ waiting s /\ armed s = true /\
  rrun s ([B (Answer 0)] ++ resp_ 0 4 ++ own 4) = (t', Some s') /\ results t' = [[0]] /\ armed s' = false.
Proof. do 4 eexists. cbv zeta. split; [vm_compute; reflexivity|]. split; [reflexivity|]. split; [reflexivity|]. split; [vm_compute; reflexivity|]. split; reflexivity. Qed.
