(** Crashes, blocking and termination of the MultiRequest machine. *)
From Coq Require Import List Bool Arith Lia Permutation.
Import ListNotations.
From Verif Require Import MultiModel MultiSpec MultiProofs MultiTrace.

(** * The window of Each *)
Record WI (s : st) : Prop := {
  w_win : in_window s -> forall i, match dp s i with D5 | D6 | D7 | D8 => False | _ => True end;
  w_clo : closed s = true -> op s = OEnd /\ forall i, dp s i <> D7;
  w_one : forall i j, dp s i = D7 -> dp s j = D7 -> i = j }.
Lemma WI_init : WI m_init.
Proof. constructor; cbn; try contradiction; try discriminate. Qed.
Lemma WI_frame : forall s s', WI s -> dp s' = dp s -> closed s' = closed s -> op s' = op s -> WI s'.
Proof.
  intros s s' [A B D] E1 E2 E3. constructor; unfold in_window in *; rewrite ?E1, ?E2, ?E3; auto.
Qed.
Lemma WI_perform : forall s i, WI s -> dp s i = D0 -> WI (w_dp s i D1).
Proof.
  intros s i [A B D] E. constructor; fields.
  - intros W j. destruct (Nat.eq_dec j i); [subst; rewrite upd_same; auto|rewrite upd_other by auto; apply A, W].
  - intros Q. destruct (B Q) as [P R]. split; auto. intros j. destruct (Nat.eq_dec j i); [subst; rewrite upd_same; discriminate|rewrite upd_other; auto].
  - intros j k. destruct (Nat.eq_dec j i); [subst; rewrite upd_same; discriminate|]. rewrite upd_other by auto.
    destruct (Nat.eq_dec k i); [subst; rewrite upd_same; discriminate|]. rewrite upd_other by auto. apply D.
Qed.
Lemma WI_move : forall s i v s', WI s -> dp s' = upd (dp s) i v -> closed s' = closed s -> op s' = op s -> v <> D7 ->
  (in_window s -> match v with D5 | D6 | D7 | D8 => False | _ => True end) -> WI s'.
Proof.
  intros s i v s' [A B D] E1 E2 E3 V W. constructor; unfold in_window in *; rewrite ?E1, ?E2, ?E3.
  - intros Q j. destruct (Nat.eq_dec j i); [subst; rewrite upd_same; apply W, Q|rewrite upd_other by auto; apply A, Q].
  - intros Q. destruct (B Q) as [P R]. split; auto. intros j. destruct (Nat.eq_dec j i); [subst; rewrite upd_same; auto|rewrite upd_other; auto].
  - intros j k. destruct (Nat.eq_dec j i); [subst; rewrite upd_same; congruence|]. rewrite upd_other by auto.
    destruct (Nat.eq_dec k i); [subst; rewrite upd_same; congruence|]. rewrite upd_other by auto. apply D.
Qed.
Lemma WI_fail : forall s k o s' k', WI s -> step_fail s k = KNext o s' k' -> WI s'.
Proof.
  intros s k o s' k' W H. apply step_fail_frame in H.
  destruct H as (_ & _ & _ & _ & _ & F1 & _ & F2 & _ & _ & _ & _ & _ & _ & [[_ F3]|(i & n & _ & _ & F3 & F4)]).
  - apply (WI_frame s); auto.
  - apply (WI_move s i D1); auto. discriminate.
Qed.
Lemma WI_op : forall s p s', WI s -> core s -> dp s' = dp s -> closed s' = closed s -> op s' = p -> op s <> OEnd ->
  (in_window s' -> in_window s \/ forall i, match dp s i with D5 | D6 | D7 | D8 => False | _ => True end) -> WI s'.
Proof.
  intros s p s' [A B D] C E1 E2 E3 N W. constructor; rewrite ?E1, ?E2.
  - intros Q i. destruct (W Q) as [X|X]; [exact (A X i)|exact (X i)].
  - intros Q. destruct (B Q). contradiction.
  - auto.
Qed.
Lemma no_late : forall s, core s -> chan s = None -> forall i, match dp s i with D5 | D6 | D7 | D8 => False | _ => True end.
Proof. intros s C H i. pose proof (m_d58 _ C i). destruct (dp s i); auto. Qed.
Lemma WI_step : forall s e o s', core s -> WI s -> (forall i, e = Resp i -> in_window s -> dp s i <> D1) -> step s e = (o, Some s') -> WI s'.
Proof.
  intros s e o s' C W Fr H. pose proof (m_ch1 _ C) as M1. unfold ch_ok in M1. destruct e; cbn [step] in H; unfold ok in H.
  - destruct (op s) eqn:E; injection H as <- <-; auto. apply (WI_op s (OChk (rn s))); fields; auto; [congruence|]. cbn. tauto.
  - destruct (op s) eqn:E; injection H as <- <-; auto. apply (WI_op s (OTest MResults)); fields; auto; [congruence|]. cbn. tauto.
  - destruct (op s) eqn:E; injection H as <- <-; auto. apply (WI_op s (OTest MEach)); fields; auto; [congruence|]. cbn. tauto.
  - destruct (i <? rn s); [|injection H as <- <-; auto]. destruct (dp s i) eqn:E; injection H as <- <-; auto. apply WI_perform; auto.
  - destruct (kp s k); injection H as <- <-; auto. apply (WI_frame s); auto.
  - destruct (op s) eqn:E; try (injection H as <- <-; auto; fail). destruct (chan s); [|injection H as <- <-; auto].
    destruct (chq s); [destruct (closed s); injection H as <- <-; auto|]. injection H as <- <-. apply (WI_frame s); auto.
  - specialize (Fr i eq_refl). unfold step_resp, ok in H. destruct (dp s i) eqn:E; try (injection H as <- <-; auto; fail).
    + injection H as <- <-. apply (WI_move s i (match chan s with None => D2 | _ => D5 end)); fields; auto; [destruct (chan s); discriminate|].
      intros Q. destruct (Fr Q). auto.
    + destruct (lock s) eqn:L; [injection H as <- <-; auto|]. destruct (not_holding s C L) as [Ho _].
      destruct (chan s); injection H as <- <-; [apply (WI_move s i D5)|apply (WI_move s i D3)]; fields; auto; try discriminate.
      unfold in_window. destruct (op s); try contradiction; discriminate.
    + injection H as <- <-. apply (WI_move s i D4); fields; auto. discriminate.
    + cbn [cn rn w_cn kwait] in H. destruct ((S (cn s) =? rn s) && kwait s); injection H as <- <-; (apply (WI_move s i DD); fields; auto; discriminate).
    + destruct (closed s); [discriminate|]. destruct (chan s); [|injection H as <- <-; auto].
      destruct (length (chq s) <? n); injection H as <- <-; auto. apply (WI_move s i D6); fields; auto; try discriminate.
      intros Q. pose proof (w_win s W Q i) as X. rewrite E in X. contradiction.
    + pose proof (not_done s C i (small s C i ltac:(congruence)) ltac:(rewrite E; auto)) as Lt.
      cbn [cn rn w_cn] in H. destruct (S (cn s) =? rn s); injection H as <- <-.
      * assert (N7 : forall j, dp s j <> D7). { intros j Q. pose proof (m_d7 _ C j) as X. rewrite Q in X. lia. }
        constructor; fields.
        -- intros Q. pose proof (w_win s W Q i) as X. rewrite E in X. contradiction.
        -- intros Q. pose proof (m_closed _ C Q). lia.
        -- intros j k Hj Hk. destruct (Nat.eq_dec j i); [destruct (Nat.eq_dec k i); [congruence|]|].
           ++ rewrite upd_other in Hk by auto. destruct (N7 k Hk).
           ++ rewrite upd_other in Hj by auto. destruct (N7 j Hj).
      * apply (WI_move s i DD); fields; auto. discriminate.
    + destruct (closed s) eqn:Ec; [discriminate|]. injection H as <- <-. constructor; fields.
      * intros Q. pose proof (w_win s W Q i) as X. rewrite E in X. contradiction.
      * intros _. split.
        -- pose proof (m_d58 _ C i) as X. rewrite E in X. pose proof (w_win s W) as Y. unfold in_window in Y. specialize (fun q => Y q i). cbn in Y.
           destruct (op s); auto; try contradiction; pose proof (Y Logic.I) as Z; rewrite E in Z; contradiction.
        -- intros j. destruct (Nat.eq_dec j i); [subst; rewrite upd_same; discriminate|rewrite upd_other by auto]. intros Q. apply n. apply (w_one s W); auto.
      * intros j k. destruct (Nat.eq_dec j i); [subst; rewrite upd_same; discriminate|]. rewrite upd_other by auto.
        destruct (Nat.eq_dec k i); [subst; rewrite upd_same; discriminate|]. rewrite upd_other by auto. apply (w_one s W).
    + injection H as <- <-. apply (WI_move s i DD); fields; auto. discriminate.
  - apply canc_frame in H. destruct H as [[-> ->]|(o1 & s1 & k1 & Sf & _ & -> & _)]; auto.
    apply (WI_frame s1); auto. eapply WI_fail; eauto.
  - unfold step_owner, ok in H. destruct (op s) eqn:Eo.
    6: { assert (k = KEnd \/ k <> KEnd) as [Ek|Ek] by (destruct k; auto; right; discriminate).
      { subst k. injection H as <- <-. apply (WI_op s (OLock m)); fields; auto; [congruence|]. cbn. tauto. }
      assert (H' : match step_fail s k with KPanic => ([OPanicNil], None) | KBlock => ([], Some s) | KNext o s k => (o, Some (w_op s (OFail m k))) end = (o, Some s')) by (destruct k; auto; contradiction). clear H.
      destruct (step_fail s k) as [| |o1 s1 k1] eqn:Sf; [discriminate|injection H' as <- <-; auto|]. injection H' as <- <-.
      pose proof (WI_fail _ _ _ _ _ W Sf) as W1. apply step_fail_frame in Sf. destruct Sf as (_ & _ & _ & _ & _ & F1 & _).
      destruct W1 as [A B D]. constructor; fields; auto; [cbn; tauto|]. intros Q. destruct (B Q). congruence. }
    all: try (injection H as <- <-; auto; fail).
    all: assert (On : op s <> OEnd) by congruence.
    + destruct (kfail s); injection H as <- <-; [apply (WI_op s (OReq i))|apply (WI_op s O0)]; fields; auto; cbn; tauto.
    + unfold fail_req in H. destruct (dp s i) eqn:E; injection H as <- <-.
      2-10: apply (WI_op s (OWaitReq i)); fields; auto; cbn; tauto.
      destruct (WI_perform s i W E) as [A B D]. constructor; fields; auto; [cbn; tauto|]. intros Q. destruct (B Q). congruence.
    + destruct (dp s i); injection H as <- <-; auto. apply (WI_op s O0); fields; auto; cbn; tauto.
    + injection H as <- <-. destruct (kfail s && negb (cn s =? rn s)); [apply (WI_op s (OFail m KLock))|apply (WI_op s (OLock m))]; fields; auto; cbn; tauto.
    + destruct (lock s); injection H as <- <-; auto. destruct m; [apply (WI_op s R2)|apply (WI_op s E3)]; fields; auto; cbn; tauto.
    + injection H as <- <-. apply (WI_op s R3); fields; auto; cbn; tauto.
    + destruct (cn s <? rn s); injection H as <- <-; [apply (WI_op s RW)|apply (WI_op s R5)]; fields; auto; cbn; tauto.
    + destruct (sig s); injection H as <- <-; auto. apply (WI_op s R4); fields; auto; cbn; tauto.
    + destruct (lock s); injection H as <- <-; auto. apply (WI_op s R5); fields; auto; cbn; tauto.
    + injection H as <- <-. destruct W as [A B D]. constructor; fields; auto; [cbn; tauto|]. intros Q. destruct (B Q). contradiction.
    + injection H as <- <-. apply (WI_op s (E4 (resp s))); fields; auto. intros _. right. apply no_late; auto.
    + destruct l as [|x l].
      * injection H as <- <-. apply (WI_op s E5); fields; auto. unfold in_window. rewrite Eo. auto.
      * destruct (closed s) eqn:Q; [discriminate|]. destruct (length (chq s) <? rn s); injection H as <- <-; auto.
        apply (WI_op s (E4 l)); fields; auto. unfold in_window. rewrite Eo. auto.
    + injection H as <- <-. apply (WI_op s E6); fields; auto. unfold in_window. rewrite Eo. auto.
    + destruct (cn s =? rn s); injection H as <- <-.
      * apply (WI_op s E7); fields; auto. unfold in_window. rewrite Eo. auto.
      * apply (WI_op s OEnd); fields; auto. cbn. tauto.
    + destruct (closed s) eqn:Q; [discriminate|]. injection H as <- <-.
      assert (Wn : in_window s) by (unfold in_window; rewrite Eo; auto).
      destruct W as [A B D]. constructor; fields; auto; [cbn; tauto|]. intros _. split; auto. intros i X. pose proof (A Wn i) as Y. rewrite X in Y. auto.
Qed.
(** the only crashes *)
Lemma crash_cases : forall s e o, step s e = (o, None) ->
  (o = [OPanicSend] /\ closed s = true /\ ((exists i, e = Resp i /\ dp s i = D5) \/ exists x l, e = Owner /\ op s = E4 (x :: l))) \/
  (o = [OPanicClose] /\ closed s = true /\ ((exists i, e = Resp i /\ dp s i = D7) \/ e = Owner /\ op s = E7)) \/
  (o = [OPanicNil] /\ ((exists k i n, e = Canc k /\ kp s k = KCall i n /\ slots s i = false) \/ exists m i n, e = Owner /\ op s = OFail m (KCall i n) /\ slots s i = false)).
Proof.
  intros s e o H. destruct e; cbn [step] in H; unfold ok in H.
  - destruct (op s); discriminate.
  - destruct (op s); discriminate.
  - destruct (op s); discriminate.
  - destruct (i <? rn s); [destruct (dp s i)|]; discriminate.
  - destruct (kp s k); discriminate.
  - destruct (op s); try discriminate. destruct (chan s); try discriminate. destruct (chq s); [destruct (closed s)|]; discriminate.
  - unfold step_resp, ok in H. destruct (dp s i) eqn:E; try discriminate.
    + destruct (lock s); [discriminate|]. destruct (chan s); discriminate.
    + destruct (closed s) eqn:Q; [injection H as <-; left; split; auto; split; auto; left; eauto|].
      destruct (chan s); [destruct (length (chq s) <? n)|]; discriminate.
    + destruct (closed s) eqn:Q; [injection H as <-; right; left; split; auto; split; auto; left; eauto|discriminate].
  - unfold step_canc, ok in H. destruct (kp s k) as [| | | |i n|i n|i n|i n|] eqn:E; try discriminate; cbn [step_fail] in H.
    + destruct (if cn s =? rn s then KEnd else KLock); discriminate.
    + destruct (lock s); discriminate.
    + destruct (i <? n); [destruct (slots s i)|]; discriminate.
    + destruct (slots s i) eqn:Q; [discriminate|]. injection H as <-. right. right. split; auto. left. eauto 8.
    + destruct (fail_req s i); discriminate.
    + destruct (dp s i); discriminate.
  - unfold step_owner, ok in H. destruct (op s) eqn:Eo; try discriminate.
    + destruct (kfail s); discriminate.
    + destruct (fail_req s i); discriminate.
    + destruct (dp s i); discriminate.
    + destruct k as [| | | |i n|i n|i n|i n|]; try discriminate; cbn [step_fail] in H.
      * destruct (lock s); discriminate.
      * destruct (i <? n); [destruct (slots s i)|]; discriminate.
      * destruct (slots s i) eqn:Q; [discriminate|]. injection H as <-. right. right. split; auto. right. eauto 8.
      * destruct (fail_req s i); discriminate.
      * destruct (dp s i); discriminate.
    + destruct (lock s); discriminate.
    + destruct (cn s <? rn s); discriminate.
    + destruct (sig s); discriminate.
    + destruct (lock s); discriminate.
    + destruct l; [discriminate|]. destruct (closed s) eqn:Q; [injection H as <-; left; split; auto; split; auto; right; eauto|].
      destruct (length (chq s) <? rn s); discriminate.
    + destruct (cn s =? rn s); discriminate.
    + destruct (closed s) eqn:Q; [injection H as <-; right; left; split; auto|discriminate].
Qed.
Lemma window_run : forall es s, core s -> WI s -> window_free s es ->
  match run s es with (_, Some s') => WI s' | (o, None) => exists o1, o = o1 ++ [OPanicNil] end.
Proof.
  induction es as [|e es IH]; cbn [run window_free]; intros s C W [F1 F2] || intros s C W F; auto.
  destruct (step s e) as [o [s1|]] eqn:E.
  - pose proof (IH s1 (core_step _ _ _ _ C E) (WI_step _ _ _ _ C W F1 E) F2) as H. destruct (run s1 es) as [o2 [s2|]]; auto.
    destruct H as [o1 ->]. exists (o ++ o1). rewrite app_assoc. auto.
  - destruct (crash_cases s e o E) as [(-> & Q & X)|[(-> & Q & X)|(-> & _)]].
    + destruct (w_clo s W Q) as [Oe _]. pose proof (m_closed _ C Q) as Cn. destruct X as [(i & _ & X)|(x & l & _ & X)]; [|congruence].
      pose proof (not_done s C i (small s C i ltac:(congruence)) ltac:(rewrite X; auto)). lia.
    + destruct (w_clo s W Q) as [Oe N7]. destruct X as [(i & _ & X)|(_ & X)]; [destruct (N7 i X)|congruence].
    + exists []. auto.
Qed.
Ltac quiet := cbn [rn cn slots resp chan chq closed kfail kwait lock sig reg dp kp op w_rn w_cn w_slot w_resp w_chan w_chq w_closed w_kfail w_kwait w_lock w_sig w_reg w_dp w_kp w_op];
  (split; [auto|split; [auto|auto; match goal with E : op _ = _ |- _ => rewrite ?E | _ => idtac end; try discriminate; auto]]).
(** without Cancel and Expire no entry is looked up twice *)
Lemma quiet_step : forall s e o s', core s -> (forall k, kp s k = KIdle) -> kfail s = false -> (forall m k, op s <> OFail m k) -> (forall k, e <> Cancel k) -> step s e = (o, Some s') ->
  (forall k, kp s' k = KIdle) /\ kfail s' = false /\ forall m k, op s' <> OFail m k.
Proof.
  intros s e o s' C K F G N H. destruct e; cbn [step] in H; unfold ok in H.
  - destruct (op s) eqn:Eo; injection H as <- <-; quiet.
  - destruct (op s) eqn:Eo; injection H as <- <-; quiet.
  - destruct (op s) eqn:Eo; injection H as <- <-; quiet.
  - destruct (i <? rn s); [destruct (dp s i)|]; injection H as <- <-; quiet.
  - destruct (N k). auto.
  - destruct (op s) eqn:Eo; try (injection H as <- <-; quiet; fail). destruct (chan s); [|injection H as <- <-; quiet]. destruct (chq s); [destruct (closed s)|]; injection H as <- <-; quiet.
  - unfold step_resp, ok in H. destruct (dp s i); try (injection H as <- <-; quiet; fail).
    + destruct (lock s); [|destruct (chan s)]; injection H as <- <-; quiet.
    + cbn [cn rn w_cn kwait] in H. destruct ((S (cn s) =? rn s) && kwait s); injection H as <- <-; quiet.
    + destruct (closed s); [discriminate|]. destruct (chan s); [destruct (length (chq s) <? n)|]; injection H as <- <-; quiet.
    + destruct (closed s); [discriminate|]. injection H as <- <-; quiet.
  - unfold step_canc in H. rewrite K in H. injection H as <- <-; quiet.
  - pose proof (m_op _ C) as Mo. unfold step_owner, ok, o_ok in *. destruct (op s) eqn:Eo; try (injection H as <- <-; quiet; fail).
    + rewrite F in H. injection H as <- <-; quiet.
    + unfold fail_req in H. destruct (dp s i); injection H as <- <-; quiet.
    + destruct (dp s i); injection H as <- <-; quiet.
    + rewrite F in H. injection H as <- <-; quiet.
    + destruct (G m k eq_refl).
    + destruct (lock s); injection H as <- <-; quiet. destruct m; discriminate.
    + destruct (cn s <? rn s); injection H as <- <-; quiet.
    + destruct (sig s); injection H as <- <-; quiet.
    + destruct (lock s); injection H as <- <-; quiet.
    + destruct l; [injection H as <- <-; quiet|]. destruct (closed s); [discriminate|]. destruct (length (chq s) <? rn s); injection H as <- <-; quiet.
    + destruct (cn s =? rn s); injection H as <- <-; quiet.
    + destruct (closed s); [discriminate|]. injection H as <- <-; quiet.
Qed.
Lemma quiet_run : forall es s, core s -> (forall k, kp s k = KIdle) -> kfail s = false -> (forall m k, op s <> OFail m k) -> uncancelled es -> forall o, run s es = (o, None) -> ~ In OPanicNil o.
Proof.
  induction es as [|e es IH]; cbn [run]; intros s C K F G U o H; [discriminate|].
  assert (U1 : forall k, e <> Cancel k) by (intros k ->; apply (U k); cbn; auto).
  assert (U2 : uncancelled es) by (intros k Q; apply (U k); cbn; auto).
  destruct (step s e) as [o1 [s1|]] eqn:E.
  - destruct (quiet_step _ _ _ _ C K F G U1 E) as (K1 & F1 & G1). destruct (run s1 es) as [o2 s2] eqn:R. injection H as <- ->.
    rewrite in_app_iff. intros [Q|Q]; [|eapply (IH s1); eauto; eapply core_step; eauto].
    pose proof (step_tr s e o1 s1 C E) as T. destruct T; cbn in Q; try intuition discriminate.
    destruct H4 as [[_ ->]|[_ ->]]; cbn in Q; intuition discriminate.
  - injection H as <-. destruct (crash_cases s e o1 E) as [(-> & _)|[(-> & _)|(-> & [(k & i & n & _ & X & _)|(m & i & n & _ & X & _)])]]; cbn; try (intuition discriminate).
    + rewrite K in X. discriminate.
    + destruct (G m (KCall i n) X).
Qed.

(** * Blocking *)
Lemma bounded_nodup : forall l n, NoDup l -> (forall x, In x l -> x < n) -> length l <= n.
Proof.
  intros l n N H. rewrite <- (seq_length n 0). apply NoDup_incl_length; auto. intros x Hx. apply in_seq. specialize (H x Hx). lia.
Qed.
Lemma avail_small : forall t s x, core s -> sent t s -> In x (avail t s) -> x < rn s.
Proof. intros t s x C [_ I] H. apply (small s C). apply I in H. intros E. rewrite E in H. discriminate. Qed.
Lemma avail_len : forall t s, core s -> sent t s -> length (avail t s) <= rn s.
Proof. intros t s C S. apply bounded_nodup; [apply S|]. intros x. apply (avail_small t s); auto. Qed.
Lemma room : forall t s i, core s -> sent t s -> i < rn s -> put (dp s i) = false -> length (chq s) < rn s.
Proof.
  intros t s i C Sn Hi P. assert (length (i :: avail t s) <= rn s).
  { apply bounded_nodup.
    - constructor; [|apply Sn]. destruct Sn as [_ I]. rewrite I. congruence.
    - intros x [->|Hx]; auto. apply (avail_small t s); auto. }
  cbn in H. unfold avail in H. rewrite !app_length in H. lia.
Qed.
Lemma resp_len : forall t s, core s -> sent t s -> (match op s with E4 _ | E5 => False | _ => True end) -> length (resp s) <= rn s.
Proof. intros t s C Sn H. pose proof (avail_len t s C Sn) as L. unfold avail, undrained in L. rewrite !app_length in L. destruct (op s); try contradiction; lia. Qed.
Lemma moved : forall s i v s', step s (Resp i) = ([], Some s') -> dp s' = upd (dp s) i v -> dp s i <> v -> stuck s -> False.
Proof.
  intros s i v s' H E N K. rewrite (K (Resp i) Logic.I) in H. injection H as <-. apply N. rewrite E. rewrite upd_same. auto.
Qed.
Lemma stuck_dp : forall t s, core s -> sent t s -> stuck s -> lock s = false /\ forall i, dp s i = D0 \/ dp s i = DD.
Proof.
  intros t s C Sn K.
  assert (L : lock s = false).
  { destruct (lock s) eqn:L; auto. exfalso. pose proof (m_lock _ C) as M. rewrite L in M.
    destruct (o_hold (op s)) as [|n] eqn:Oh.
    - assert (exists i, i < rn s /\ c_hold (dp s i) = 1) as (i & Hi & H1).
      { unfold holders in M. clear - M. induction (rn s) as [|n IH]; cbn in M; [lia|].
        destruct (c_hold (dp s n)) eqn:E; [destruct IH as (i & ? & ?); [lia|]; exists i; auto|].
        pose proof (hold_le1 (dp s n)). exists n. split; auto. lia. }
      pose proof (K (Resp i) Logic.I) as S1. cbn [step] in S1. unfold step_resp, ok in S1.
      destruct (dp s i) eqn:E; try discriminate.
      + injection S1 as X. apply (f_equal (fun s => dp s i)) in X. fields. rewrite upd_same in X. congruence.
      + cbn [cn rn w_cn kwait] in S1. destruct ((S (cn s) =? rn s) && kwait s); injection S1 as X; apply (f_equal cn) in X; fields; lia.
    - pose proof (K Owner Logic.I) as S1. cbn [step] in S1. unfold step_owner, ok in S1. destruct (op s) eqn:Eo; try discriminate.
      all: try (injection S1 as X; apply (f_equal op) in X; fields; congruence).
      + destruct (cn s <? rn s); injection S1 as X; apply (f_equal op) in X; fields; congruence.
      + destruct l as [|x l]; [injection S1 as X; apply (f_equal op) in X; fields; congruence|].
        destruct (closed s); [discriminate|].
        assert (length (chq s) < rn s). { pose proof (avail_len t s C Sn) as Q. unfold avail, undrained in Q. rewrite Eo, !app_length in Q. cbn in Q. lia. }
        destruct (Nat.ltb_spec (length (chq s)) (rn s)); [|lia]. injection S1 as X. apply (f_equal op) in X. fields. rewrite Eo in X.
        injection X as X. apply (f_equal (@length nat)) in X. cbn in X. lia.
      + destruct (cn s =? rn s); [injection S1 as X; apply (f_equal op) in X; fields; congruence|discriminate].
      + destruct (closed s); discriminate. }
  split; auto. intros i. pose proof (K (Resp i) Logic.I) as S1. cbn [step] in S1. unfold step_resp, ok in S1.
  destruct (dp s i) eqn:E; auto; exfalso.
  - injection S1 as X. apply (f_equal (fun s => dp s i)) in X. fields. rewrite upd_same in X. destruct (chan s); congruence.
  - rewrite L in S1. destruct (chan s); injection S1 as X; apply (f_equal (fun s => dp s i)) in X; fields; rewrite upd_same in X; congruence.
  - injection S1 as X. apply (f_equal (fun s => dp s i)) in X. fields. rewrite upd_same in X. congruence.
  - cbn [cn rn w_cn kwait] in S1. destruct ((S (cn s) =? rn s) && kwait s); injection S1 as X; apply (f_equal cn) in X; fields; lia.
  - destruct (closed s); [discriminate|].
    pose proof (m_d58 _ C i) as Q. rewrite E in Q. pose proof (m_ch1 _ C) as M. unfold ch_ok in M.
    assert (chan s = Some (rn s)) as Ec by (destruct (op s); auto; try contradiction; destruct (chan s); congruence).
    rewrite Ec in S1. assert (length (chq s) < rn s) by (apply (room t s i); auto; [apply (small s C); congruence|rewrite E; auto]).
    destruct (Nat.ltb_spec (length (chq s)) (rn s)); [|lia]. injection S1 as X. apply (f_equal (fun s => dp s i)) in X. fields. rewrite upd_same in X. congruence.
  - cbn [cn rn w_cn] in S1. injection S1 as X. apply (f_equal cn) in X. fields. lia.
  - destruct (closed s); [discriminate|]. injection S1 as X. apply (f_equal (fun s => dp s i)) in X. fields. rewrite upd_same in X. congruence.
  - injection S1 as X. apply (f_equal (fun s => dp s i)) in X. fields. rewrite upd_same in X. congruence.
Qed.
(** a goroutine in performFailAll is never blocked when nothing else can move *)
Lemma fail_free : forall s k, core s -> k_ok s k -> lock s = false -> (forall i, dp s i = D0 \/ dp s i = DD) -> k <> KIdle -> k <> KEnd -> step_fail s k <> KBlock.
Proof.
  intros s k C Ko L D N1 N2. destruct k; cbn [step_fail]; try contradiction; try discriminate.
  - rewrite L. discriminate.
  - destruct (i <? n); discriminate.
  - destruct (slots s i); discriminate.
  - destruct (fail_req s i); discriminate.
  - destruct Ko as (_ & _ & N & _). destruct (D i) as [Q|Q]; [contradiction|]. rewrite Q. discriminate.
Qed.
Lemma kstep_ne : forall s k o s' k', kstep s k o s' k' -> k' <> k.
Proof.
  intros s k o s' k' H. destruct k; cbn [kstep] in H; try contradiction.
  - destruct H as (_ & _ & ->). discriminate.
  - destruct H as (_ & _ & [[_ ->]|[_ ->]]); discriminate.
  - destruct H as (_ & _ & _ & ->); discriminate.
  - destruct H as (_ & _ & [(_ & _ & ->)|[(_ & _ & ->)|(_ & ->)]]); try discriminate. intros X. injection X. lia.
  - destruct H as (_ & _ & ->). discriminate.
  - destruct H as [_ ->]. discriminate.
  - destruct H as (_ & _ & _ & ->). discriminate.
Qed.
Lemma stuck_cases : forall t s, core s -> sent t s -> stuck s ->
  (forall i, dp s i = D0 \/ dp s i = DD) /\ (forall k, kp s k = KIdle \/ kp s k = KEnd) /\
  (op s = O0 \/ op s = OEnd \/ op s = RW /\ cn s < rn s).
Proof.
  intros t s C Sn K. destruct (stuck_dp t s C Sn K) as [L D]. split; auto. split.
  - intros k. pose proof (K (Canc k) Logic.I) as S1. cbn [step] in S1. pose proof (m_k _ C k) as Ko.
    assert (Cs : kp s k = KIdle \/ kp s k = KEnd \/ (kp s k <> KIdle /\ kp s k <> KEnd)) by (destruct (kp s k); auto; right; right; split; discriminate).
    destruct Cs as [|[|[N1 N2]]]; auto. exfalso. pose proof (fail_free s (kp s k) C Ko L D N1 N2) as Fr.
    assert (S2 : match step_fail s (kp s k) with KPanic => ([OPanicNil], None) | KBlock => ([], Some s)
       | KNext o s' KEnd => (o ++ [OCancelled k], Some (w_kp s' k KEnd)) | KNext o s' p' => (o, Some (w_kp s' k p')) end = ([], Some s)).
    { unfold step_canc in S1. destruct (kp s k); auto; contradiction. }
    destruct (step_fail s (kp s k)) as [| |o1 s1 k1] eqn:Sf; [discriminate|congruence|].
    apply step_fail_spec in Sf. apply kstep_ne in Sf. apply Sf.
    assert (X : k1 <> KEnd -> Some (w_kp s1 k k1) = Some s) by (intros; destruct k1; congruence).
    destruct k1; try (specialize (X ltac:(discriminate)); injection X as X; apply (f_equal (fun s => kp s k)) in X; fields; rewrite upd_same in X; exact X).
    apply (f_equal fst) in S2. cbn in S2. destruct o1; discriminate.
  - pose proof (K Owner Logic.I) as S1. cbn [step] in S1. unfold step_owner, ok in S1. destruct (op s) eqn:Eo; auto; try (exfalso; injection S1 as X; apply (f_equal op) in X; fields; congruence).
    + exfalso. destruct (kfail s); [injection S1 as X; apply (f_equal op) in X; fields; congruence|discriminate].
    + exfalso. unfold fail_req in S1. destruct (dp s i); try discriminate; injection S1 as X; apply (f_equal op) in X; fields; congruence.
    + exfalso. pose proof (m_op _ C) as Mo. unfold o_ok in Mo. rewrite Eo in Mo. destruct Mo as [_ Mo]. destruct (D i) as [Q|Q]; [contradiction|].
      rewrite Q in S1. discriminate.
    + exfalso. injection S1 as X. apply (f_equal op) in X. fields. rewrite Eo in X. destruct (kfail s && negb (cn s =? rn s)); discriminate.
    + exfalso. assert (k = KEnd \/ k <> KEnd) as [Ek|Ek] by (destruct k; auto; right; discriminate).
      { subst k. injection S1 as X. apply (f_equal op) in X. fields. congruence. }
      pose proof (m_op _ C) as Mo. unfold o_ok in Mo. rewrite Eo in Mo.
      destruct Mo as [Ei Mo].
      pose proof (fail_free s k C Mo L D Ei Ek) as Fr.
      assert (H' : match step_fail s k with KPanic => ([OPanicNil], None) | KBlock => ([], Some s) | KNext o s k => (o, Some (w_op s (OFail m k))) end = ([], Some s)) by (destruct k; auto; contradiction). clear S1.
      destruct (step_fail s k) as [| |o1 s1 k1] eqn:Sf; [discriminate|congruence|].
      apply step_fail_spec in Sf. apply kstep_ne in Sf. injection H' as _ X. apply (f_equal op) in X. fields. congruence.
    + exfalso. rewrite L in S1. injection S1 as X. apply (f_equal op) in X. fields. destruct m; congruence.
    + exfalso. destruct (cn s <? rn s); injection S1 as X; apply (f_equal op) in X; fields; congruence.
    + right. right. split; auto. pose proof (m_op _ C) as Mo. unfold o_ok in Mo. rewrite Eo in Mo. destruct Mo as [_ Mo].
      destruct (sig s); [injection S1 as X; apply (f_equal op) in X; fields; congruence|].
      pose proof (m_cn _ C). unfold counted in *. pose proof (sumf_le1 (fun i => c_cnt (dp s i)) (rn s) ltac:(intros; apply cnt_le1)).
      destruct (Nat.eq_dec (cn s) (rn s)) as [Q|Q]; [apply Mo in Q; discriminate|lia].
    + exfalso. rewrite L in S1. injection S1 as X. apply (f_equal op) in X. fields. congruence.
    + pose proof (owner_holds s C) as Q. rewrite Eo in Q. destruct (Q eq_refl). congruence.
    + pose proof (owner_holds s C) as Q. rewrite Eo in Q. destruct (Q eq_refl). congruence.
    + pose proof (owner_holds s C) as Q. rewrite Eo in Q. destruct (Q eq_refl). congruence.
    + pose proof (owner_holds s C) as Q. rewrite Eo in Q. destruct (Q eq_refl). congruence.
Qed.

(** * Termination *)
Definition wd (d : dpc) : nat := match d with D0 => 9 | D1 => 8 | D2 => 7 | D3 => 6 | D4 => 5 | D5 => 4 | D6 => 3 | D7 => 2 | D8 => 1 | DD => 0 end.
Definition wk (r : nat) (k : kpc) : nat :=
  match k with
  | KIdle | KEnd => 0
  | KKind => 4 * r + 4 | KTest => 4 * r + 3 | KLock => 4 * r + 2
  | KLoop i n => 1 + 4 * (n - i) | KCall i n => 4 * (n - i) | KReq i n => 4 * (n - i) - 1 | KWait i n => 4 * (n - i) - 2
  end.
Definition wo (r : nat) (o : opc) : nat :=
  match o with
  | O0 | OEnd => 0
  | OChk _ => 3 | OReq _ => 2 | OWaitReq _ => 1
  | OTest _ => (r + 6) + (4 * r + 2) + 2
  | OFail _ k => (r + 6) + wk r k + 1
  | OLock _ => r + 6
  | R2 => 5 | R3 => 4 | RW => 3 | R4 => 2 | R5 => 1
  | E3 => r + 5 | E4 l => length l + 4 | E5 => 3 | E6 => 2 | E7 => 1
  end.
Definition work (n : nat) (s : st) : nat := sumf (fun i => wd (dp s i)) (rn s) + sumf (fun k => wk (rn s) (kp s k)) n + wo (rn s) (op s).
Lemma sumf_updg : forall A (g : A -> nat) d i v n, i < n ->
  sumf (fun j => g (upd d i v j)) n + g (d i) = sumf (fun j => g (d j)) n + g v.
Proof.
  induction n; intros H; [lia|]. cbn. destruct (Nat.eq_dec i n) as [E|E].
  - subst. rewrite upd_same. rewrite (sumf_ext _ (fun j => g (d j))); [lia|]. intros. rewrite upd_other by lia. auto.
  - rewrite (upd_other _ _ _ _ n) by lia. assert (i < n) by lia. specialize (IHn H0). lia.
Qed.
Lemma work_dp : forall n s i v s', i < rn s -> rn s' = rn s -> kp s' = kp s -> op s' = op s -> dp s' = upd (dp s) i v -> wd v < wd (dp s i) -> work n s' < work n s.
Proof.
  intros n s i v s' Hi E1 E2 E3 E4 L. unfold work. rewrite E1, E2, E3, E4. pose proof (sumf_updg _ wd (dp s) i v (rn s) Hi). cbn in *. lia.
Qed.
Lemma work_op : forall n s s', rn s' = rn s -> kp s' = kp s -> dp s' = dp s -> wo (rn s) (op s') < wo (rn s) (op s) -> work n s' < work n s.
Proof. intros n s s' E1 E2 E3 L. unfold work. rewrite E1, E2, E3. lia. Qed.
Lemma work_fail : forall s k o s' k', core s -> k_ok s k -> kstep s k o s' k' ->
  rn s' = rn s /\ kp s' = kp s /\ op s' = op s /\ sumf (fun i => wd (dp s' i)) (rn s) <= sumf (fun i => wd (dp s i)) (rn s) /\ wk (rn s) k' < wk (rn s) k.
Proof.
  intros s k o s' k' C Ko H. destruct k; cbn [kstep k_ok] in *; try contradiction.
  - destruct H as (_ & -> & ->). fields. cbn [wk]. repeat split; lia.
  - destruct H as (_ & -> & [[_ ->]|[_ ->]]); cbn [wk]; repeat split; lia.
  - destruct H as (_ & -> & _ & ->). cbn [wk]; repeat split; lia.
  - destruct H as (_ & -> & [(? & _ & ->)|[(? & _ & ->)|(? & ->)]]); cbn [wk]; repeat split; lia.
  - destruct H as (_ & -> & ->). cbn [wk]. repeat split; lia.
  - destruct H as [[(_ & D & ->)|(_ & D & ->)] ->]; fields; cbn [wk]; repeat split; try lia.
    pose proof (sumf_updg _ wd (dp s) i D1 (rn s) ltac:(lia)) as X. cbn beta in X. rewrite D in X. cbn [wd] in X. lia.
  - destruct H as (_ & -> & _ & ->). cbn [wk]; repeat split; lia.
Qed.
Lemma work_step : forall n t s e o s', core s -> sent t s -> (forall k, n <= k -> kp s k = KIdle) -> internal e -> step s e = (o, Some s') -> s' = s \/ work n s' < work n s.
Proof.
  intros n t s e o s' C Sn B I H. destruct e; try contradiction; cbn [step] in H.
  - unfold step_resp, ok in H. assert (Hi : dp s i <> D0 -> i < rn s) by apply (small s C).
    destruct (dp s i) eqn:E; try (injection H as <- <-; auto; fail).
    all: assert (Hi' : i < rn s) by (apply Hi; congruence).
    + injection H as <- <-. right. apply (work_dp n s i (match chan s with None => D2 | _ => D5 end)); fields; auto. rewrite E. destruct (chan s); cbn; lia.
    + destruct (lock s); [injection H as <- <-; auto|]. destruct (chan s); injection H as <- <-; right; [apply (work_dp n s i D5)|apply (work_dp n s i D3)]; fields; auto; rewrite E; cbn; lia.
    + injection H as <- <-. right. apply (work_dp n s i D4); fields; auto; rewrite E; cbn; lia.
    + cbn [cn rn w_cn kwait] in H. destruct ((S (cn s) =? rn s) && kwait s); injection H as <- <-; right; (apply (work_dp n s i DD); fields; auto; rewrite E; cbn; lia).
    + destruct (closed s); [discriminate|]. destruct (chan s); [destruct (length (chq s) <? n0)|]; injection H as <- <-; auto.
      right. apply (work_dp n s i D6); fields; auto; rewrite E; cbn; lia.
    + cbn [cn rn w_cn] in H. destruct (S (cn s) =? rn s); injection H as <- <-; right; [apply (work_dp n s i D7)|apply (work_dp n s i DD)]; fields; auto; rewrite E; cbn; lia.
    + destruct (closed s); [discriminate|]. injection H as <- <-; right; apply (work_dp n s i D8); fields; auto; rewrite E; cbn; lia.
    + injection H as <- <-; right; apply (work_dp n s i DD); fields; auto; rewrite E; cbn; lia.
  - apply canc_frame in H. destruct H as [[-> ->]|(o1 & s1 & k1 & Sf & Ne & -> & _)]; auto.
    right. apply step_fail_spec in Sf. pose proof (work_fail s (kp s k) o1 s1 k1 C (m_k _ C k) Sf) as (E1 & E2 & E3 & L1 & L2).
    assert (Hk : k < n). { destruct (Nat.lt_ge_cases k n) as [|Q]; auto. rewrite (B k Q) in Sf. contradiction. }
    unfold work. fields. rewrite E1, E2, E3. pose proof (sumf_updg _ (wk (rn s)) (kp s) k k1 n Hk) as X. cbn beta in X. lia.
  - unfold step_owner, ok in H. pose proof (m_op _ C) as Mo. unfold o_ok in Mo. destruct (op s) eqn:Eo.
    6: { assert (k = KEnd \/ k <> KEnd) as [Ek|Ek] by (destruct k; auto; right; discriminate).
      { subst k. injection H as <- <-. right. apply work_op; fields; auto. rewrite Eo. cbn. lia. }
      assert (H' : match step_fail s k with KPanic => ([OPanicNil], None) | KBlock => ([], Some s) | KNext o s k => (o, Some (w_op s (OFail m k))) end = (o, Some s')) by (destruct k; auto; contradiction). clear H.
      destruct (step_fail s k) as [| |o1 s1 k1] eqn:Sf; [discriminate|injection H' as <- <-; auto|]. injection H' as <- <-. destruct Mo as [_ Mo].
      apply step_fail_spec in Sf. pose proof (work_fail s k o1 s1 k1 C Mo Sf) as (E1 & E2 & E3 & L1 & L2).
      right. unfold work. fields. rewrite E1, E2, Eo. cbn [wo]. lia. }
    all: try (injection H as <- <-; auto; fail).
    + destruct (kfail s); injection H as <- <-; right; apply work_op; fields; auto; rewrite Eo; cbn; lia.
    + right. unfold fail_req in H. destruct (dp s i) eqn:E; injection H as <- <-.
      2-10: apply work_op; fields; auto; rewrite Eo; cbn; lia.
      unfold work. fields. rewrite Eo. pose proof (sumf_updg _ wd (dp s) i D1 (rn s) ltac:(lia)) as X. cbn beta in X. rewrite E in X. cbn [wd wo] in *. lia.
    + destruct (dp s i); injection H as <- <-; auto. right. apply work_op; fields; auto; rewrite Eo; cbn; lia.
    + injection H as <- <-. right. apply work_op; fields; auto; rewrite Eo. destruct (kfail s && negb (cn s =? rn s)); cbn; lia.
    + destruct (lock s); injection H as <- <-; auto. right. apply work_op; fields; auto; rewrite Eo. destruct m; cbn; lia.
    + injection H as <- <-. right. apply work_op; fields; auto; rewrite Eo; cbn; lia.
    + destruct (cn s <? rn s); injection H as <- <-; right; apply work_op; fields; auto; rewrite Eo; cbn; lia.
    + destruct (sig s); injection H as <- <-; auto. right; apply work_op; fields; auto; rewrite Eo; cbn; lia.
    + destruct (lock s); injection H as <- <-; auto. right; apply work_op; fields; auto; rewrite Eo; cbn; lia.
    + injection H as <- <-. right. apply work_op; fields; auto; rewrite Eo; cbn; lia.
    + injection H as <- <-. right. apply work_op; fields; auto; rewrite Eo. pose proof (resp_len t s C Sn) as R. rewrite Eo in R. specialize (R Logic.I). cbn. lia.
    + destruct l as [|x l]; [injection H as <- <-; right; apply work_op; fields; auto; rewrite Eo; cbn; lia|].
      destruct (closed s); [discriminate|]. destruct (length (chq s) <? rn s); injection H as <- <-; auto. right; apply work_op; fields; auto; rewrite Eo; cbn; lia.
    + injection H as <- <-. right. apply work_op; fields; auto; rewrite Eo; cbn; lia.
    + destruct (cn s =? rn s); injection H as <- <-; right; apply work_op; fields; auto; rewrite Eo; cbn; lia.
    + destruct (closed s); [discriminate|]. injection H as <- <-. right. apply work_op; fields; auto; rewrite Eo; cbn; lia.
Qed.
Lemma idle_step : forall s e o s', internal e -> step s e = (o, Some s') -> forall k, kp s k = KIdle -> kp s' k = KIdle.
Proof.
  intros s e o s' I H k Hk. destruct e; try contradiction; cbn [step] in H.
  - unfold step_resp, ok in H. assert (kp s' = kp s) as ->; [|auto].
    destruct (dp s i); try (injection H as _ <-; auto; fail).
    + destruct (lock s); [|destruct (chan s)]; injection H as _ <-; auto.
    + cbn [cn rn w_cn kwait] in H. destruct ((S (cn s) =? rn s) && kwait s); injection H as _ <-; auto.
    + destruct (closed s); [discriminate|]. destruct (chan s); [destruct (length (chq s) <? n)|]; injection H as _ <-; auto.
    + destruct (closed s); [discriminate|]. injection H as _ <-; auto.
  - apply canc_frame in H. destruct H as [[_ ->]|(o1 & s1 & k1 & Sf & Ne & -> & _)]; auto.
    fields. pose proof (step_fail_frame _ _ _ _ _ Sf) as F. destruct F as (_ & _ & _ & _ & _ & _ & _ & _ & _ & _ & F & _). rewrite F.
    destruct (Nat.eq_dec k k0) as [X|X]; [|rewrite upd_other; auto]. subst k0. rewrite Hk in Sf. discriminate.
  - unfold step_owner, ok in H. assert (kp s' = kp s) as ->; [|auto].
    destruct (op s) eqn:Eo; try (injection H as _ <-; auto; fail).
    + destruct (kfail s); injection H as _ <-; auto.
    + unfold fail_req in H. destruct (dp s i); injection H as _ <-; auto.
    + destruct (dp s i); injection H as _ <-; auto.
    + assert (k0 = KEnd \/ k0 <> KEnd) as [Ek|Ek] by (destruct k0; auto; right; discriminate); [subst; injection H as _ <-; auto|].
      assert (H' : match step_fail s k0 with KPanic => ([OPanicNil], None) | KBlock => ([], Some s) | KNext o s k => (o, Some (w_op s (OFail m k))) end = (o, Some s')) by (destruct k0; auto; contradiction).
      destruct (step_fail s k0) as [| |o1 s1 k1] eqn:Sf; [discriminate|injection H' as _ <-; auto|]. injection H' as _ <-. fields.
      pose proof (step_fail_frame _ _ _ _ _ Sf) as F. apply F.
    + destruct (lock s); injection H as _ <-; auto.
    + destruct (cn s <? rn s); injection H as _ <-; auto.
    + destruct (sig s); injection H as _ <-; auto.
    + destruct (lock s); injection H as _ <-; auto.
    + destruct l; [injection H as _ <-; auto|]. destruct (closed s); [discriminate|]. destruct (length (chq s) <? rn s); injection H as _ <-; auto.
    + destruct (cn s =? rn s); injection H as _ <-; auto.
    + destruct (closed s); [discriminate|]. injection H as _ <-; auto.
Qed.
Lemma idle_reach : forall t s, reach t s -> exists n, forall k, n <= k -> kp s k = KIdle.
Proof.
  induction 1 as [|t s e o s' R [n IH] H]; [exists 0; auto|].
  assert (Cs : internal e \/ ~ internal e) by (destruct e; cbn; tauto). destruct Cs as [I|I].
  - exists n. intros k Hk. eapply idle_step; eauto.
  - destruct e; cbn in I; try tauto; cbn [step] in H; unfold ok in H.
    + exists n. destruct (op s); injection H as _ <-; auto.
    + exists n. destruct (op s); injection H as _ <-; auto.
    + exists n. destruct (op s); injection H as _ <-; auto.
    + exists n. destruct (i <? rn s); [destruct (dp s i)|]; injection H as _ <-; auto.
    + exists (Nat.max n (S k)). intros j Hj. destruct (kp s k); injection H as _ <-; fields; try (apply IH; lia). rewrite upd_other by lia. apply IH. lia.
    + exists n. destruct (op s); try (injection H as _ <-; auto; fail). destruct (chan s); [|injection H as _ <-; auto]. destruct (chq s); [destruct (closed s)|]; injection H as _ <-; auto.
Qed.
Lemma effective_bound : forall n es t s, TI t s -> (forall k, n <= k -> kp s k = KIdle) -> effective s es -> length es <= work n s.
Proof.
  induction es as [|e es IH]; cbn [effective length]; intros t s T B H; [lia|].
  destruct H as (I & o & s' & E & N & H).
  destruct (work_step n t s e o s' (t_core _ _ T) (t_sent _ _ T) B I E) as [X|X]; [contradiction|].
  assert (length es <= work n s'). { apply (IH (t ++ o)); auto. eapply TI_step; eauto. intros k Hk. eapply idle_step; eauto. }
  lia.
Qed.

(** * The end of the channel *)
Definition end_ok (s : st) : Prop := op s = OEnd -> chan s <> None -> cn s = rn s -> closed s = true \/ exists i, dp s i = D7.
Lemma end_step : forall s e o s', core s -> end_ok s -> step s e = (o, Some s') -> end_ok s'.
Proof.
  intros s e o s' C En H. pose proof (step_tr s e o s' C H) as T. unfold end_ok in *.
  destruct T; fields; auto; try congruence.
  - destruct H3 as (R1 & R2 & R3 & R4). rewrite H6, R1, R2, R3. intros A B D.
    destruct H5 as [Q|[Q|[Q|Q]]]; try contradiction.
    + rewrite Q in D. destruct (En A B D) as [|[j Hj]]; auto. right. exists j. rewrite H8, upd_other; auto. congruence.
    + right. exists i. rewrite H8, upd_same. auto.
  - intros A B D. destruct (En A B D) as [|[j Hj]]; auto. right. exists j. rewrite upd_other; auto. congruence.
  - destruct H2 as (R1 & Rc & R2 & R3 & R4). rewrite R1, Rc, R2, R3, H5. intros A B D.
    pose proof (not_done s C i H1). rewrite H0 in H2. cbn in H2. lia.
  - intros _ B. pose proof (m_ch1 _ C) as M. unfold ch_ok in M. rewrite H0 in M. contradiction.
  - intros _ _ D. left. apply H9. congruence.
  - destruct H1 as (R1 & Rc & R2 & R3 & R4). rewrite R1, Rc, R2, R3, H3, H2. auto.
Qed.
Lemma end_reach : forall t s, reach t s -> end_ok s.
Proof. induction 1; [intros A; discriminate|eapply end_step; eauto using reach_core]. Qed.

(** * The two loads of performFailAll *)
Definition loads_ok (s : st) : Prop :=
  (forall k i n, kp s k = KCall i n -> slots s i = true) /\ (forall m i n, op s = OFail m (KCall i n) -> slots s i = true).
Lemma kstep_call : forall s k o s' k' i n, kstep s k o s' k' -> k' = KCall i n -> slots s i = true /\ s' = s.
Proof.
  intros s k o s' k' i n H E. destruct k; cbn [kstep] in H; try contradiction.
  - destruct H as (_ & _ & X). congruence.
  - destruct H as (_ & _ & [[_ X]|[_ X]]); congruence.
  - destruct H as (_ & _ & _ & X); congruence.
  - destruct H as (_ & -> & [(_ & S & X)|[(_ & _ & X)|(_ & X)]]); try congruence. split; congruence.
  - destruct H as (_ & _ & X). congruence.
  - destruct H as [_ X]. congruence.
  - destruct H as (_ & _ & _ & X). congruence.
Qed.
Lemma loads_step : forall s e o s', loads_ok s -> (forall k i n, kp s k = KCall i n -> e = Canc k) -> (forall m i n, op s = OFail m (KCall i n) -> e = Owner) ->
  step s e = (o, Some s') -> loads_ok s'.
Proof.
  intros s e o s' [L1 L2] N1 N2 H.
  assert (Cs : (exists k, e = Canc k) \/ e = Owner \/ (forall k, e <> Canc k) /\ e <> Owner) by (destruct e; eauto; right; right; split; try intros; discriminate).
  destruct Cs as [[k ->]|[-> |[X1 X2]]].
  - cbn [step] in H. apply canc_frame in H. destruct H as [[-> ->]|(o1 & s1 & k1 & Sf & Ne & -> & _)]; [split; auto|].
    pose proof (step_fail_frame _ _ _ _ _ Sf) as F. destruct F as (_ & _ & _ & _ & _ & Fo & _ & _ & _ & _ & Fk & _).
    apply step_fail_spec in Sf. split; fields.
    + intros j i n Hj. destruct (Nat.eq_dec j k) as [->|Nj].
      * rewrite upd_same in Hj. destruct (kstep_call _ _ _ _ _ _ _ Sf Hj) as [A ->]. auto.
      * rewrite upd_other, Fk in Hj by auto. specialize (N1 j i n Hj). congruence.
    + intros m i n Hm. rewrite Fo in Hm. specialize (N2 m i n Hm). discriminate.
  - assert (K0 : forall k i n, kp s k <> KCall i n) by (intros k i n Q; specialize (N1 k i n Q); discriminate).
    cbn [step] in H. unfold step_owner, ok in H.
    assert (Kp : kp s' = kp s /\ forall m i n, op s' = OFail m (KCall i n) -> slots s' i = true).
    { destruct (op s) eqn:Eo; try (injection H as _ <-; split; fields; auto; intros; congruence).
      + destruct (kfail s); injection H as _ <-; split; fields; auto; intros; congruence.
      + unfold fail_req in H. destruct (dp s i); injection H as _ <-; split; fields; auto; intros; congruence.
      + destruct (dp s i); injection H as _ <-; split; fields; auto; intros; congruence.
      + injection H as _ <-; split; fields; auto. destruct (kfail s && negb (cn s =? rn s)); intros; congruence.
      + assert (k = KEnd \/ k <> KEnd) as [Ek|Ek] by (destruct k; auto; right; discriminate); [subst; injection H as _ <-; split; fields; auto; intros; congruence|].
        assert (H' : match step_fail s k with KPanic => ([OPanicNil], None) | KBlock => ([], Some s) | KNext o s k => (o, Some (w_op s (OFail m k))) end = (o, Some s')) by (destruct k; auto; contradiction).
        destruct (step_fail s k) as [| |o1 s1 k1] eqn:Sf; [discriminate|injection H' as _ <-; split; auto; intros m1 i n Q; rewrite Eo in Q; apply (L2 m1 i n); congruence|]. injection H' as _ <-. fields.
        pose proof (step_fail_frame _ _ _ _ _ Sf) as F. split; [apply F|]. apply step_fail_spec in Sf. intros m1 i n Q. injection Q as _ Q.
        destruct (kstep_call _ _ _ _ _ _ _ Sf Q) as [A ->]. auto.
      + destruct (lock s); injection H as _ <-; split; fields; auto; try (intros; congruence). destruct m; intros; congruence.
      + destruct (cn s <? rn s); injection H as _ <-; split; fields; auto; intros; congruence.
      + destruct (sig s); injection H as _ <-; split; fields; auto; intros; congruence.
      + destruct (lock s); injection H as _ <-; split; fields; auto; intros; congruence.
      + destruct l; [injection H as _ <-; split; fields; auto; intros; congruence|]. destruct (closed s); [discriminate|]. destruct (length (chq s) <? rn s); injection H as _ <-; split; fields; auto; intros; congruence.
      + destruct (cn s =? rn s); injection H as _ <-; split; fields; auto; intros; congruence.
      + destruct (closed s); [discriminate|]. injection H as _ <-; split; fields; auto; intros; congruence. }
    destruct Kp as [Kp Q]. split; auto. rewrite Kp. intros k i n Y. destruct (K0 k i n Y).
  - assert (K0 : forall k i n, kp s k <> KCall i n) by (intros k i n Q; specialize (N1 k i n Q); congruence).
    assert (O0' : forall m i n, op s <> OFail m (KCall i n)) by (intros m i n Q; specialize (N2 m i n Q); congruence).
    assert (Q : (forall k i n, kp s' k <> KCall i n) /\ (forall m i n, op s' <> OFail m (KCall i n))).
    { destruct e; cbn [step] in H; unfold ok in H; try congruence.
      - destruct (op s) eqn:Eo; injection H as _ <-; split; fields; auto; try (rewrite Eo; auto); intros; discriminate.
      - destruct (op s) eqn:Eo; injection H as _ <-; split; fields; auto; try (rewrite Eo; auto); intros; discriminate.
      - destruct (op s) eqn:Eo; injection H as _ <-; split; fields; auto; try (rewrite Eo; auto); intros; discriminate.
      - destruct (i <? rn s); [destruct (dp s i)|]; injection H as _ <-; split; fields; auto.
      - destruct (kp s k) eqn:Ek; injection H as _ <-; split; fields; auto. intros j i n. destruct (Nat.eq_dec j k) as [->|]; [rewrite upd_same; discriminate|rewrite upd_other; auto].
      - destruct (op s) eqn:Eo; try (injection H as _ <-; split; fields; auto; rewrite Eo; auto; fail). destruct (chan s); [|injection H as _ <-; split; auto; rewrite Eo; auto].
        destruct (chq s); [destruct (closed s)|]; injection H as _ <-; split; fields; auto; rewrite Eo; auto.
      - assert (X : kp s' = kp s /\ op s' = op s).
        { unfold step_resp, ok in H. destruct (dp s i); try (injection H as _ <-; auto; fail).
          + destruct (lock s); [|destruct (chan s)]; injection H as _ <-; auto.
          + cbn [cn rn w_cn kwait] in H. destruct ((S (cn s) =? rn s) && kwait s); injection H as _ <-; auto.
          + destruct (closed s); [discriminate|]. destruct (chan s); [destruct (length (chq s) <? n)|]; injection H as _ <-; auto.
          + destruct (closed s); [discriminate|]. injection H as _ <-; auto. }
        destruct X as [-> ->]. auto. }
    destruct Q as [Q1 Q2]. split; intros; exfalso; eauto. eapply Q1; eauto. eapply Q2; eauto.
Qed.
Lemma loads_run : forall es s, core s -> loads_ok s -> atomic_loads s es -> forall o, run s es = (o, None) -> ~ In OPanicNil o.
Proof.
  induction es as [|e es IH]; cbn [run atomic_loads]; intros s C L A o H; [discriminate|]. destruct A as (A1 & A2 & A3).
  destruct (step s e) as [o1 [s1|]] eqn:E.
  - pose proof (loads_step s e o1 s1 L A1 A2 E) as L1. destruct (run s1 es) as [o2 s2] eqn:R. injection H as <- ->.
    rewrite in_app_iff. intros [Q|Q]; [|eapply (IH s1); eauto; eapply core_step; eauto].
    pose proof (step_tr s e o1 s1 C E) as T. destruct T; cbn in Q; try intuition discriminate.
    destruct H4 as [[_ ->]|[_ ->]]; cbn in Q; intuition discriminate.
  - injection H as <-. destruct L as [La Lb]. destruct (crash_cases s e o1 E) as [(-> & _)|[(-> & _)|(-> & [(k & i & n & _ & X & Y)|(m & i & n & _ & X & Y)])]]; cbn; try (intuition discriminate).
    + specialize (La k i n X). congruence.
    + specialize (Lb m i n X). congruence.
Qed.
