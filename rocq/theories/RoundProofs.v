(** Invariants of the MultiRequest used in rounds. *)
From Coq Require Import List Bool Arith Lia Permutation.
Import ListNotations.
From Verif Require Import MultiModel MultiSpec MultiProofs MultiTrace MultiLive RoundModel RoundSpec.

(** * The steps *)
Lemma base_step : forall s e o s', rstep s e = (o, Some s') ->
  (exists e', step (base s) e' = (o, Some (base s')) /\ e <> Again) \/ (o = [] /\ base s' = base s) \/
  (e = Again /\ op (base s) = OEnd /\ o = [] /\ base s' = w_op (base s) O0).
Proof.
  assert (L : forall s x o s', lift s x = (o, Some s') -> x = (o, Some (base s'))).
  { intros s [o1 [b|]] o s' H; cbn in H; [|discriminate]. injection H as <- <-. reflexivity. }
  intros s e o s' H. destruct e as [e| | |k].
  - destruct e; cbn [rstep] in H;
    try (left; eexists; split; [exact (L _ _ _ _ H)|discriminate]).
    + destruct (op (base s)); try (injection H as <- <-; right; left; auto; fail). left. exists Issue. split; [exact (L _ _ _ _ H)|discriminate].
    + destruct (chan (base s)); [injection H as <- <-; right; left; auto|]. left. exists Each. split; [exact (L _ _ _ _ H)|discriminate].
  - cbn [rstep] in H. destruct (op (base s)) eqn:E; injection H as <- <-; auto. right. right. auto.
  - cbn [rstep] in H. right. left. destruct (op (base s)); try (injection H as <- <-; auto; fail); destruct (tset s); injection H as <- <-; auto.
  - cbn [rstep] in H. destruct (armed s); [|injection H as <- <-; auto].
    destruct (kp (base s) k); try (injection H as <- <-; auto; fail). left. exists (Cancel k). split; [exact (L _ _ _ _ H)|discriminate].
Qed.
Lemma base_crash : forall s e o, rstep s e = (o, None) -> exists e', step (base s) e' = (o, None).
Proof.
  assert (L : forall s x o, lift s x = (o, None) -> x = (o, None)).
  { intros s [o1 [b|]] o H; cbn in H; [discriminate|]. injection H as <-. reflexivity. }
  intros s e o H. destruct e as [e| | |k].
  - destruct e; cbn [rstep] in H; try (eexists; exact (L _ _ _ H)).
    + destruct (op (base s)); try discriminate. eexists; exact (L _ _ _ H).
    + destruct (chan (base s)); [discriminate|]. eexists; exact (L _ _ _ H).
  - cbn [rstep] in H. destruct (op (base s)); discriminate.
  - cbn [rstep] in H. destruct (op (base s)); try discriminate; destruct (tset s); discriminate.
  - cbn [rstep] in H. destruct (armed s); [|discriminate]. destruct (kp (base s) k); try discriminate. eexists; exact (L _ _ _ H).
Qed.

Inductive rreach : list obs -> rs -> Prop :=
| rreach0 : rreach [] r_init
| rreachS : forall t s e o s', rreach t s -> (e = Again -> chan (base s) = None) -> rstep s e = (o, Some s') -> rreach (t ++ o) s'.
Lemma rrun_reach : forall es t s o s', rreach t s -> not_after_each s es -> rrun s es = (o, Some s') -> rreach (t ++ o) s'.
Proof.
  induction es as [|e es IH]; cbn [rrun not_after_each]; intros t s o s' R N H.
  - injection H as <- <-. rewrite app_nil_r. auto.
  - destruct N as [N1 N2]. destruct (rstep s e) as [o1 [s1|]] eqn:E; [|discriminate]. destruct (rrun s1 es) as [o2 s2] eqn:F.
    injection H as <- ->. rewrite app_assoc. apply (IH (t ++ o1) s1 o2 s'); auto. exact (rreachS _ _ _ _ _ R N1 E).
Qed.
Lemma rcrash_reach : forall es t s o, rreach t s -> not_after_each s es -> rrun s es = (o, None) ->
  exists s1 o1 o2 e, rreach (t ++ o1) s1 /\ step (base s1) e = (o2, None) /\ o = o1 ++ o2.
Proof.
  induction es as [|e es IH]; cbn [rrun not_after_each]; intros t s o R N H; [discriminate|]. destruct N as [N1 N2].
  destruct (rstep s e) as [o1 [s1|]] eqn:E.
  - destruct (rrun s1 es) as [o2 s2] eqn:F. injection H as <- ->.
    destruct (IH (t ++ o1) s1 o2) as (s' & p & q & e' & A & B & ->); auto. { exact (rreachS _ _ _ _ _ R N1 E). }
    exists s', (o1 ++ p), q, e'. rewrite <- app_assoc in A. split; [exact A|split; [exact B|apply app_assoc]].
  - injection H as <-. destruct (base_crash s e o1 E) as [e' E']. exists s, [], o1, e'. rewrite app_nil_r. auto.
Qed.

(** * The history *)
Record RI (t : list obs) (s : st) : Prop := {
  ri_core : core s;
  ri_sent : MultiTrace.sent t s;
  ri_iss : issued t = seq 0 (pre s);
  ri_perf : NoDup (performed t) /\ forall i, In i (performed t) <-> dp s i <> D0;
  ri_recv : received t <> [] -> chan s <> None;
  ri_canc : forall k, In (OCancelled k) t <-> kp s k = KEnd }.
Lemma RI_again : forall t s, RI t s -> op s = OEnd -> chan s = None -> RI t (w_op s O0).
Proof.
  intros t s [[M1 M2 M3 M4 M5 M6 M7 M8 M9 M10 M11 M12 M13 M14] Sn Is Pf Rc Ca] E Ec.
  assert (X : forall j, exposed (w_op s O0) j -> exposed s j).
  { intros j (A & B & C & D). unfold exposed. fields. rewrite E. repeat split; auto; discriminate. }
  constructor; fields; auto.
  - constructor; fields; auto.
    + rewrite E in M3. exact M3.
    + unfold undrained in *. fields. rewrite E in M12. exact M12.
    + exact Logic.I.
    + intros k. apply (k_mono s); fields; auto.
  - apply (sent_same t s); auto. unfold avail, undrained. fields. rewrite E. auto.
  - rewrite Is. unfold pre. fields. rewrite E. reflexivity.
Qed.
Lemma RI_step : forall t s e o s', RI t s -> step s e = (o, Some s') -> RI (t ++ o) s'.
Proof.
  intros t s e o s' [C Sn Is [Pn Pf] Rv Ca] H.
  assert (Sn' : MultiTrace.sent (t ++ o) s') by (eapply sent_step; eauto).
  assert (C' : core s') by (eapply core_step; eauto).
  pose proof (step_tr s e o s' C H) as T.
  pose proof (m_ch1 _ C) as M1. unfold ch_ok in M1.
  destruct T.
  - rewrite app_nil_r in *. constructor; auto.
  - rewrite app_nil_r in *. constructor; fields; auto. rewrite Is. unfold pre. fields. rewrite H0. auto.
  - rewrite app_nil_r in *. destruct H3 as (R1 & R2 & R3 & R4). constructor; auto.
    + unfold pre in *. rewrite R1, H6. auto.
    + split; auto. intros j. rewrite Pf, H8. destruct (Nat.eq_dec j i); [subst; rewrite upd_same; tauto|rewrite upd_other by auto; tauto].
    + rewrite R2. auto.
    + rewrite H7. auto.
  - rewrite app_nil_r in *. constructor; fields; auto.
    split; auto. intros j. rewrite Pf. destruct (Nat.eq_dec j i); [subst; rewrite upd_same, H0; split; discriminate|rewrite upd_other by auto; tauto].
  - rewrite app_nil_r in *. constructor; fields; auto.
    split; auto. intros j. rewrite Pf. destruct (Nat.eq_dec j i); [subst; rewrite upd_same, H0; split; discriminate|rewrite upd_other by auto; tauto].
  - destruct H2 as (R1 & Rc & R2 & R3 & R4). constructor; auto.
    + rewrite issued_app. cbn. rewrite app_nil_r, H4. auto.
    + rewrite performed_app. cbn. split.
      * apply NoDup_app_snoc'; auto. rewrite Pf. congruence.
      * intros j. rewrite in_app_iff. cbn. rewrite Pf, H3. destruct (Nat.eq_dec j i); [subst; rewrite upd_same; split; [discriminate|auto]|rewrite upd_other by auto; intuition].
    + rewrite received_app. cbn. rewrite app_nil_r, R2. auto.
    + intros k. rewrite in_app_iff. cbn. rewrite H6, <- Ca. intuition discriminate.
  - rewrite app_nil_r in *. constructor; auto.
    + rewrite H6. auto.
    + rewrite H0. auto.
    + intros Q. destruct H9 as [->|[E3' _]]; auto. rewrite E3' in M1. destruct (Rv Q M1).
    + rewrite H1. auto.
  - constructor; fields; auto.
    + rewrite issued_app, Is. cbn. pose proof (m_op _ C) as Mo. unfold o_ok, pre in *. fields.
      destruct H0 as [E|E]; rewrite E in *.
      * rewrite Mo. rewrite seq_S. auto.
      * destruct Mo as [-> _]. rewrite seq_S. auto.
    + rewrite performed_app. cbn. rewrite app_nil_r. auto.
    + rewrite received_app. cbn. rewrite app_nil_r. auto.
    + intros k. rewrite in_app_iff. cbn. rewrite <- Ca. intuition discriminate.
  - constructor; fields; auto.
    + rewrite issued_app. cbn. rewrite app_nil_r, Is. unfold pre. fields. rewrite H0. auto.
    + rewrite performed_app. cbn. rewrite app_nil_r. auto.
    + rewrite received_app. cbn. rewrite app_nil_r. auto.
    + intros k. rewrite in_app_iff. cbn. rewrite <- Ca. intuition discriminate.
  - constructor; fields; auto.
    + rewrite issued_app. cbn. rewrite app_nil_r, Is. unfold pre. rewrite H1, H4. destruct H0 as [E|E]; rewrite E; auto.
    + rewrite performed_app, H2. cbn. rewrite app_nil_r. auto.
    + rewrite received_app. cbn. rewrite app_nil_r, H5. auto.
    + intros k. rewrite in_app_iff. cbn. rewrite H3, <- Ca. intuition discriminate.
  - constructor; fields; auto.
    + rewrite issued_app. cbn. rewrite app_nil_r. auto.
    + rewrite performed_app. cbn. rewrite app_nil_r. auto.
    + intros k. rewrite in_app_iff, Ca. cbn. intuition discriminate.
  - constructor; fields; auto.
    + rewrite issued_app. cbn. rewrite app_nil_r. auto.
    + rewrite performed_app. cbn. rewrite app_nil_r. auto.
    + intros k. rewrite in_app_iff, Ca. cbn. intuition discriminate.
  - destruct H1 as (R1 & Rc & R2 & R3 & R4).
    assert (Oe : o = [] \/ o = [OCancelled k]) by (destruct H5 as [[_ ->]|[_ ->]]; auto).
    constructor; auto.
    + rewrite issued_app. unfold pre in *. destruct Oe as [-> | ->]; cbn; rewrite app_nil_r, R1, H3; auto.
    + rewrite performed_app, H2. destruct Oe as [-> | ->]; cbn; rewrite app_nil_r; auto.
    + rewrite received_app. destruct Oe as [-> | ->]; cbn; rewrite app_nil_r, R2; auto.
    + intros j. rewrite in_app_iff, Ca, H4. destruct H5 as [[Q ->]|[-> ->]]; cbn;
      (destruct (Nat.eq_dec j k); [subst j; rewrite upd_same|rewrite upd_other by auto]); intuition congruence.
Qed.
Lemma RI_init : RI [] m_init.
Proof.
  constructor; cbn; auto; try discriminate.
  - apply core_init.
  - split; cbn; [constructor|]. intuition discriminate.
  - split; [constructor|]. intuition.
  - intuition discriminate.
Qed.
Lemma rreach_RI : forall t s, rreach t s -> RI t (base s).
Proof.
  induction 1 as [|t s e o s' R IH N H]; [apply RI_init|].
  destruct (base_step s e o s' H) as [(e' & E & _)|[[-> E]|(-> & E1 & -> & E2)]].
  - exact (RI_step _ _ _ _ _ IH E).
  - rewrite app_nil_r, E. exact IH.
  - rewrite app_nil_r, E2. apply RI_again; auto.
Qed.

(** * What Results and Each give *)
Lemma step_result : forall s e o s' l, core s -> step s e = (o, Some s') -> In (OResult l) o -> op s = R5 /\ o = [OResult l] /\ l = resp s.
Proof.
  intros s e o s' l C H I. pose proof (step_tr s e o s' C H) as T.
  destruct T; cbn in I; try contradiction; try (destruct I as [I|[]]; discriminate).
  - destruct I as [I|[]]. injection I as <-. auto.
  - destruct H5 as [[_ ->]|[_ ->]]; cbn in I; [contradiction|destruct I as [I|[]]; discriminate].
Qed.
Lemma step_eof : forall s e o s', core s -> step s e = (o, Some s') -> In OEOF o -> op s = OEnd /\ o = [OEOF] /\ chq s = [] /\ closed s = true.
Proof.
  intros s e o s' C H I. pose proof (step_tr s e o s' C H) as T.
  destruct T; cbn in I; try contradiction; try (destruct I as [I|[]]; discriminate); auto.
  destruct H5 as [[_ ->]|[_ ->]]; cbn in I; [contradiction|destruct I as [I|[]]; discriminate].
Qed.
Lemma crash_obs : forall s e o, step s e = (o, None) -> o = [OPanicSend] \/ o = [OPanicClose] \/ o = [OPanicNil].
Proof. intros s e o H. apply crash_cases in H. tauto. Qed.
Lemma in_split_app : forall (A : Type) (x : A) t o t1 t2, t ++ o = t1 ++ x :: t2 ->
  (exists t3, t = t1 ++ x :: t3 /\ t2 = t3 ++ o) \/ (exists o1, o = o1 ++ x :: t2 /\ t1 = t ++ o1).
Proof.
  intros A x t. induction t as [|y t IH]; intros o t1 t2 H; cbn in H.
  - right. exists t1. auto.
  - destruct t1 as [|z t1]; cbn in H; injection H as -> H.
    + left. exists t. split; auto.
    + destruct (IH _ _ _ H) as [(t3 & -> & ->)|(o1 & -> & ->)]; [left; exists t3|right; exists o1]; auto.
Qed.
Definition results_ok (t : list obs) : Prop := forall t1 l t2, t = t1 ++ OResult l :: t2 -> Permutation (given t1 ++ l) (issued t1).
Definition eof_ok (t : list obs) : Prop := forall t1 t2, t = t1 ++ OEOF :: t2 -> Permutation (given t1 ++ received t1) (issued t1).
Lemma all_given : forall t s, RI t s -> cn s = rn s -> Permutation (received t ++ given t ++ chq s ++ undrained s) (seq 0 (rn s)).
Proof. intros t s R E. exact (avail_all t s (ri_core _ _ R) (ri_sent _ _ R) E). Qed.
Lemma hist_step : forall t s e o s', RI t s -> results_ok t -> eof_ok t -> step s e = (o, Some s') -> results_ok (t ++ o) /\ eof_ok (t ++ o).
Proof.
  intros t s e o s' R A B H. split.
  - intros t1 l t2 Q. apply in_split_app in Q. destruct Q as [(t3 & -> & _)|(o1 & E & ->)]; [exact (A t1 l t3 eq_refl)|].
    destruct (step_result s e o s' l (ri_core _ _ R) H) as (P & Eo & ->); [rewrite E; apply in_elt|].
    rewrite Eo in E. destruct o1 as [|y [|]]; try discriminate. injection E as <-. rewrite app_nil_r.
    pose proof (ri_core _ _ R) as C. pose proof (m_op _ C) as Mo. unfold o_ok in Mo. rewrite P in Mo.
    pose proof (m_ch1 _ C) as M1. unfold ch_ok in M1. rewrite P in M1. destruct (m_ch0 _ C M1) as [Mq _].
    pose proof (all_given t s R Mo) as G. unfold undrained in G. rewrite P, Mq in G.
    assert (received t = []) as Rn. { destruct (received t) eqn:Q; auto. destruct (ri_recv _ _ R); [rewrite Q; discriminate|auto]. }
    rewrite Rn in G. rewrite (ri_iss _ _ R). unfold pre. rewrite P. exact G.
  - intros t1 t2 Q. apply in_split_app in Q. destruct Q as [(t3 & -> & _)|(o1 & E & ->)]; [exact (B t1 t3 eq_refl)|].
    destruct (step_eof s e o s' (ri_core _ _ R) H) as (P & Eo & Eq & Ec); [rewrite E; apply in_elt|].
    rewrite Eo in E. destruct o1 as [|y [|]]; try discriminate. rewrite app_nil_r.
    pose proof (ri_core _ _ R) as C. pose proof (m_drained _ C) as Md. rewrite P in Md.
    pose proof (all_given t s R (m_closed _ C Ec)) as G. unfold undrained in G. rewrite P, Eq, Md, app_nil_r in G. cbn [app] in G. rewrite ?app_nil_r in G.
    rewrite (ri_iss _ _ R). unfold pre. rewrite P. rewrite <- G. apply Permutation_app_comm.
Qed.
Lemma rreach_hist : forall t s, rreach t s -> results_ok t /\ eof_ok t.
Proof.
  induction 1 as [|t s e o s' R [IH1 IH2] N H].
  - split; intros t1 ?; intros; destruct t1; discriminate.
  - destruct (base_step s e o s' H) as [(e' & E & _)|[[-> E]|(-> & E1 & -> & E2)]]; [|rewrite app_nil_r; auto|rewrite app_nil_r; auto].
    eapply hist_step; eauto. apply rreach_RI. auto.
Qed.
Lemma rrun_hist : forall es t so, rrun r_init es = (t, so) -> not_after_each r_init es -> results_ok t /\ eof_ok t.
Proof.
  intros es t [s|] H N.
  - pose proof (rrun_reach es [] r_init t s rreach0 N H) as R. apply (rreach_hist t s). exact R.
  - destruct (rcrash_reach es [] r_init t rreach0 N H) as (s1 & o1 & o2 & e & R & E & ->). cbn [app] in R.
    destruct (rreach_hist _ _ R) as [A B]. apply crash_obs in E. split.
    + intros t1 l t2 Q. apply in_split_app in Q. destruct Q as [(t3 & -> & _)|(o3 & E2 & _)]; [exact (A t1 l t3 eq_refl)|].
      exfalso. destruct E as [->|[->| ->]]; destruct o3 as [|? [|]]; discriminate.
    + intros t1 t2 Q. apply in_split_app in Q. destruct Q as [(t3 & -> & _)|(o3 & E2 & _)]; [exact (B t1 t3 eq_refl)|].
      exfalso. destruct E as [->|[->| ->]]; destruct o3 as [|? [|]]; discriminate.
Qed.

(** * Nobody waits for ever *)
Lemma RI_rest : forall t s, RI t s -> stuck s -> all_performed t -> user_free s.
Proof.
  intros t s R K A. destruct (stuck_cases t s (ri_core _ _ R) (ri_sent _ _ R) K) as (D & _ & [E|[E|[E L]]]); unfold user_free; auto.
  exfalso. pose proof (ri_core _ _ R) as C. rewrite (m_cn _ C) in L. apply sumf_ex in L. destruct L as (i & Hi & Z).
  assert (In i (issued t)) as I by (rewrite (ri_iss _ _ R); unfold pre; rewrite E; apply in_seq; lia).
  apply A in I. apply (ri_perf _ _ R) in I. destruct (D i) as [X|X]; rewrite X in *; [contradiction|discriminate].
Qed.
Lemma RI_cancelled : forall t s k, RI t s -> stuck s -> kp s k <> KIdle -> all_performed t.
Proof.
  intros t s k R K N i I. pose proof (ri_core _ _ R) as C. destruct (stuck_cases t s C (ri_sent _ _ R) K) as (D & Kc & O).
  destruct (Kc k) as [X|X]; [contradiction|]. pose proof (m_k _ C k) as Ko. rewrite X in Ko. destruct Ko as [_ Ko].
  apply (ri_perf _ _ R). intros Z. apply (Ko i). rewrite (ri_iss _ _ R) in I. apply in_seq in I.
  unfold exposed, pre in *. destruct O as [E|[E|[E _]]]; rewrite E in *; repeat split; auto; try lia; discriminate.
Qed.

(** * All calls end *)
Lemma ridle : forall t s, rreach t s -> exists n, forall k, n <= k -> kp (base s) k = KIdle.
Proof.
  induction 1 as [|t s e o s' R [n IH] N H]; [exists 0; auto|].
  destruct (base_step s e o s' H) as [(e' & E & _)|[[-> E]|(-> & E1 & -> & E2)]]; [|rewrite E; eauto|rewrite E2; fields; eauto].
  assert (Cs : internal e' \/ ~ internal e') by (destruct e'; cbn; tauto). destruct Cs as [J|J].
  - exists n. intros k Hk. eapply idle_step; eauto.
  - pose proof (step_tr _ _ _ _ (ri_core _ _ (rreach_RI _ _ R)) E) as T.
    destruct e'; cbn in J; try tauto; cbn [step] in E; unfold ok in E.
    + exists n. destruct (op (base s)); injection E as _ <-; fields; auto.
    + exists n. destruct (op (base s)); injection E as _ <-; fields; auto.
    + exists n. destruct (op (base s)); injection E as _ <-; fields; auto.
    + exists n. destruct (i <? rn (base s)); [|injection E as _ <-; auto]. destruct (dp (base s) i); injection E as _ <-; fields; auto.
    + exists (S (n + k)). intros j Hj. destruct (kp (base s) k); injection E as _ <-; fields; try (apply IH; lia).
      rewrite upd_other by lia. apply IH. lia.
    + exists n. destruct (op (base s)); try (injection E as _ <-; auto; fail). destruct (chan (base s)); [|injection E as _ <-; auto].
      destruct (chq (base s)); [destruct (closed (base s))|]; injection E as _ <-; fields; auto.
Qed.
Lemma reffective_bound : forall n es t s, RI t s -> (forall k, n <= k -> kp s k = KIdle) -> effective s es -> length es <= work n s.
Proof.
  induction es as [|e es IH]; cbn [effective length]; intros t s T Bk H; [lia|].
  destruct H as (J & o & s' & E & N & H).
  destruct (work_step n t s e o s' (ri_core _ _ T) (ri_sent _ _ T) Bk J E) as [X|X]; [contradiction|].
  assert (length es <= work n s'); [|lia]. apply (IH (t ++ o)); auto.
  - eapply RI_step; eauto.
  - intros k Hk. eapply idle_step; eauto.
Qed.

(** * Used once: the context and the timer *)
Definition issuing (o : opc) : Prop := match o with O0 | OChk _ | OReq _ | OWaitReq _ => True | _ => False end.
Definition calling (o : opc) : Prop := match o with OTest _ | OFail _ _ | OLock _ | R2 => True | _ => issuing o end.
Lemma fail_op : forall s k o s' k', step_fail s k = KNext o s' k' -> op s' = op s /\ (kwait s' = kwait s) /\ kp s' = kp s /\ reg s' = reg s /\ cn s' = cn s /\ rn s' = rn s.
Proof.
  intros s k o s' k' H. destruct k; cbn [step_fail] in H; try discriminate; try (injection H as <- <- <-; fields; auto 10; fail).
  - destruct (lock s); [discriminate|]. injection H as <- <- <-. auto 10.
  - destruct (i <? n); [destruct (slots s i)|]; injection H as <- <- <-; auto 10.
  - destruct (slots s i); [|discriminate]. injection H as <- <- <-. auto 10.
  - unfold fail_req in H. destruct (dp s i); injection H as <- <- <-; fields; auto 10.
  - destruct (dp s i); try discriminate. injection H as <- <- <-. auto 10.
Qed.
(** what a step does to the program counter of the user, to mrWait and to the registration *)
Record moves (s s' : st) : Prop := {
  mv_iss : ~ issuing (op s) -> ~ issuing (op s') /\ rn s' = rn s;
  mv_call : ~ calling (op s) -> ~ calling (op s');
  mv_wait : kwait s' = true -> kwait s = true \/ ~ calling (op s');
  mv_chan : chan s' <> None -> chan s <> None \/ ~ calling (op s');
  mv_reg : reg s' = false -> reg s = false \/ op s = R5 \/ exists i, dp s i = D8;
  mv_cn : cn s <= cn s' }.
Lemma moves_same : forall s s', op s' = op s -> rn s' = rn s -> kwait s' = kwait s -> chan s' = chan s -> reg s' = reg s -> cn s <= cn s' -> moves s s'.
Proof. intros s s' E1 E2 E3 E4 E5 E6. constructor; rewrite ?E1, ?E2, ?E3, ?E4, ?E5; auto. Qed.
Lemma step_moves : forall s e o s', step s e = (o, Some s') -> moves s s'.
Proof.
  intros s e o s' H. destruct e; cbn [step] in H; unfold ok in H.
  - destruct (op s) eqn:E; injection H as <- <-; try (apply moves_same; auto; fail). constructor; fields; rewrite ?E; cbn; auto; tauto.
  - destruct (op s) eqn:E; injection H as <- <-; try (apply moves_same; auto; fail). constructor; fields; rewrite ?E; cbn; auto; tauto.
  - destruct (op s) eqn:E; injection H as <- <-; try (apply moves_same; auto; fail). constructor; fields; rewrite ?E; cbn; auto; tauto.
  - destruct (i <? rn s); [|injection H as <- <-; apply moves_same; auto]. destruct (dp s i); injection H as <- <-; apply moves_same; auto.
  - destruct (kp s k); injection H as <- <-; apply moves_same; auto.
  - destruct (op s); try (injection H as <- <-; apply moves_same; auto; fail). destruct (chan s) eqn:Ec; [|injection H as <- <-; apply moves_same; auto].
    destruct (chq s); [destruct (closed s)|]; injection H as <- <-; apply moves_same; auto.
  - unfold step_resp, ok in H. destruct (dp s i) eqn:E; try (injection H as <- <-; apply moves_same; auto; fail).
    + destruct (lock s); [injection H as <- <-; apply moves_same; auto|]. destruct (chan s) eqn:Ec; injection H as <- <-; apply moves_same; auto.
    + cbn [cn rn w_cn kwait] in H. destruct ((S (cn s) =? rn s) && kwait s); injection H as <- <-; apply moves_same; fields; auto.
    + destruct (closed s); [discriminate|]. destruct (chan s); [|injection H as <- <-; apply moves_same; auto]. destruct (length (chq s) <? n); injection H as <- <-; apply moves_same; auto.
    + cbn [cn rn w_cn] in H. destruct (S (cn s) =? rn s); injection H as <- <-; apply moves_same; fields; auto.
    + destruct (closed s); [discriminate|]. injection H as <- <-. apply moves_same; auto.
    + injection H as <- <-. constructor; fields; eauto.
  - apply canc_frame in H. destruct H as [[-> ->]|(o1 & s1 & k1 & Sf & _ & -> & _)]; [apply moves_same; auto|].
    pose proof (fail_op _ _ _ _ _ Sf) as (A1 & A2 & A3 & A4 & A5 & A6). pose proof (step_fail_frame _ _ _ _ _ Sf) as (_ & _ & _ & _ & _ & _ & A7 & _).
    apply moves_same; fields; auto. lia.
  - unfold step_owner, ok in H. destruct (op s) eqn:Eo.
    6: { assert (k = KEnd \/ k <> KEnd) as [Ek|Ek] by (destruct k; auto; right; discriminate).
      { subst k. injection H as <- <-. constructor; fields; rewrite ?Eo; cbn; auto; tauto. }
      assert (H' : match step_fail s k with KPanic => ([OPanicNil], None) | KBlock => ([], Some s) | KNext o s k => (o, Some (w_op s (OFail m k))) end = (o, Some s')) by (destruct k; auto; contradiction). clear H.
      destruct (step_fail s k) as [| |o1 s1 k1] eqn:Sf; [discriminate|injection H' as <- <-; apply moves_same; auto|]. injection H' as <- <-.
      pose proof (fail_op _ _ _ _ _ Sf) as (A1 & A2 & A3 & A4 & A5 & A6). pose proof (step_fail_frame _ _ _ _ _ Sf) as (_ & _ & _ & _ & _ & _ & A7 & _).
      constructor; fields; rewrite ?Eo, ?A2, ?A4, ?A5, ?A6, ?A7; cbn; auto; tauto. }
    all: try (injection H as <- <-; apply moves_same; auto; fail).
    + destruct (kfail s); injection H as <- <-; constructor; fields; rewrite ?Eo; cbn; auto; tauto.
    + unfold fail_req in H. destruct (dp s i); injection H as <- <-; constructor; fields; rewrite ?Eo; cbn; auto; tauto.
    + destruct (dp s i); injection H as <- <-; try (apply moves_same; auto; fail). constructor; fields; rewrite ?Eo; cbn; auto; tauto.
    + injection H as <- <-. destruct (kfail s && negb (cn s =? rn s)); constructor; fields; rewrite ?Eo; cbn; auto; tauto.
    + destruct (lock s); injection H as <- <-; [apply moves_same; auto|]. constructor; fields; rewrite ?Eo; destruct m; cbn; auto; tauto.
    + injection H as <- <-. constructor; fields; rewrite ?Eo; cbn; auto; tauto.
    + destruct (cn s <? rn s); injection H as <- <-; constructor; fields; rewrite ?Eo; cbn; auto; tauto.
    + destruct (sig s); injection H as <- <-; [|apply moves_same; auto]. constructor; fields; rewrite ?Eo; cbn; auto; tauto.
    + destruct (lock s); injection H as <- <-; [apply moves_same; auto|]. constructor; fields; rewrite ?Eo; cbn; auto; tauto.
    + injection H as <- <-. constructor; fields; rewrite ?Eo; cbn; auto; tauto.
    + injection H as <- <-. constructor; fields; rewrite ?Eo; cbn; auto; tauto.
    + destruct l as [|x l]; [injection H as <- <-; constructor; fields; rewrite ?Eo; cbn; auto; tauto|].
      destruct (closed s); [discriminate|]. destruct (length (chq s) <? rn s); injection H as <- <-; [|apply moves_same; auto].
      constructor; fields; rewrite ?Eo; cbn; auto; tauto.
    + injection H as <- <-. constructor; fields; rewrite ?Eo; cbn; auto; tauto.
    + destruct (cn s =? rn s); injection H as <- <-; constructor; fields; rewrite ?Eo; cbn; auto; tauto.
    + destruct (closed s) eqn:Ec; [discriminate|]. injection H as <- <-. constructor; fields; rewrite ?Eo; cbn; auto; tauto.
Qed.
Lemma kp_live : forall s e o s' k, step s e = (o, Some s') -> kp s k <> KIdle -> kp s' k <> KIdle.
Proof.
  intros s e o s' k H N. destruct e as [| | |i|j| |i|j|]; cbn [step] in H; unfold ok in H.
  - destruct (op s); injection H as _ <-; fields; auto.
  - destruct (op s); injection H as _ <-; fields; auto.
  - destruct (op s); injection H as _ <-; fields; auto.
  - destruct (i <? rn s); [|injection H as _ <-; auto]. destruct (dp s i); injection H as _ <-; fields; auto.
  - destruct (kp s j) eqn:E; injection H as _ <-; fields; auto. destruct (Nat.eq_dec k j); [subst; contradiction|]. rewrite upd_other; auto.
  - destruct (op s); try (injection H as _ <-; auto; fail). destruct (chan s); [|injection H as _ <-; auto]. destruct (chq s); [destruct (closed s)|]; injection H as _ <-; fields; auto.
  - unfold step_resp, ok in H. destruct (dp s i); try (injection H as _ <-; fields; auto; fail).
    + destruct (lock s); [injection H as _ <-; auto|]. destruct (chan s); injection H as _ <-; fields; auto.
    + cbn [cn rn w_cn kwait] in H. destruct ((S (cn s) =? rn s) && kwait s); injection H as _ <-; fields; auto.
    + destruct (closed s); [discriminate|]. destruct (chan s); [|injection H as _ <-; auto]. destruct (length (chq s) <? n); injection H as _ <-; fields; auto.
    + destruct (closed s); [discriminate|]. injection H as _ <-. fields. auto.
  - apply canc_frame in H. destruct H as [[-> ->]|(o1 & s1 & k1 & Sf & _ & -> & _)]; auto.
    pose proof (fail_op _ _ _ _ _ Sf) as (_ & _ & A3 & _). fields. rewrite A3.
    destruct (Nat.eq_dec k j); [subst; rewrite upd_same|rewrite upd_other; auto]. eapply kstep_live, step_fail_spec; eauto.
  - unfold step_owner, ok in H. assert (kp s' = kp s) as ->; [|auto]. destruct (op s) eqn:Eo.
    6: { assert (k0 = KEnd \/ k0 <> KEnd) as [Ek|Ek] by (destruct k0; auto; right; discriminate).
      { subst k0. injection H as _ <-. auto. }
      assert (H' : match step_fail s k0 with KPanic => ([OPanicNil], None) | KBlock => ([], Some s) | KNext o s k => (o, Some (w_op s (OFail m k))) end = (o, Some s')) by (destruct k0; auto; contradiction). clear H.
      destruct (step_fail s k0) as [| |o1 s1 k1] eqn:Sf; [discriminate|injection H' as _ <-; auto|]. injection H' as _ <-. fields. apply (fail_op _ _ _ _ _ Sf). }
    all: try (injection H as _ <-; fields; auto; fail).
    + destruct (kfail s); injection H as _ <-; auto.
    + unfold fail_req in H. destruct (dp s i); injection H as _ <-; auto.
    + destruct (dp s i); injection H as _ <-; auto.
    + destruct (lock s); injection H as _ <-; auto.
    + destruct (cn s <? rn s); injection H as _ <-; auto.
    + destruct (sig s); injection H as _ <-; auto.
    + destruct (lock s); injection H as _ <-; auto.
    + destruct l as [|x l]; [injection H as _ <-; auto|]. destruct (closed s); [discriminate|]. destruct (length (chq s) <? rn s); injection H as _ <-; auto.
    + destruct (cn s =? rn s); injection H as _ <-; auto.
    + destruct (closed s); [discriminate|]. injection H as _ <-; auto.
Qed.
Lemma cn_le : forall s, core s -> cn s <= rn s.
Proof. intros s C. rewrite (m_cn _ C). apply sumf_le1. intros; apply cnt_le1. Qed.
Lemma issuing_calling : forall p, issuing p -> calling p.
Proof. destruct p; cbn; tauto. Qed.
Lemma settled_moves : forall s s', core s' -> moves s s' -> cn s = rn s -> ~ issuing (op s) -> cn s' = rn s' /\ ~ issuing (op s').
Proof. intros s s' C M E N. destruct (mv_iss _ _ M N) as [A Rn]. pose proof (mv_cn _ _ M). pose proof (cn_le s' C). split; auto. lia. Qed.
Definition OB (s : st) : Prop :=
  (kwait s = true -> ~ calling (op s)) /\ (chan s <> None -> ~ calling (op s)) /\ (reg s = false -> cn s = rn s /\ ~ issuing (op s)).
Lemma OB_step : forall s e o s', core s -> OB s -> step s e = (o, Some s') -> OB s'.
Proof.
  intros s e o s' C (A & B & D) H. pose proof (step_moves s e o s' H) as M. pose proof (core_step s e o s' C H) as C'.
  split; [|split].
  - intros Q. destruct (mv_wait _ _ M Q) as [X|X]; auto. apply (mv_call _ _ M). auto.
  - intros Q. destruct (mv_chan _ _ M Q) as [X|X]; auto. apply (mv_call _ _ M). auto.
  - intros Q. destruct (mv_reg _ _ M Q) as [X|[X|[i X]]].
    + destruct (D X). apply (settled_moves s s'); auto.
    + pose proof (m_op _ C) as Mo. unfold o_ok in Mo. rewrite X in Mo. apply (settled_moves s s'); auto. rewrite X. cbn. tauto.
    + pose proof (m_d7 _ C i) as M7. pose proof (m_d58 _ C i) as M5. rewrite X in M7, M5. apply (settled_moves s s'); auto.
      intros Y. apply (B M5). apply issuing_calling, Y.
Qed.
Definition OT (s : rs) : Prop :=
  tset s = true -> armed s = true \/ (exists k, kp (base s) k <> KIdle) \/ cn (base s) = rn (base s) /\ ~ issuing (op (base s)).
Lemma lift_some : forall s x o s', lift s x = (o, Some s') -> exists b, x = (o, Some b) /\ s' = w_base s b.
Proof. intros s [o1 [b|]] o s' H; cbn in H; [|discriminate]. injection H as <- <-. exists b. auto. Qed.
Lemma OT_base : forall s e o b s', core (base s) -> OT s -> step (base s) e = (o, Some b) -> base s' = b -> tset s' = tset s -> armed s' = armed s -> OT s'.
Proof.
  intros s e o b s' C T H Eb Et Ea Q. rewrite Eb, Ea. rewrite Et in Q. destruct (T Q) as [X|[[k X]|[X Y]]]; auto.
  - right. left. exists k. eapply kp_live; eauto.
  - right. right. apply (settled_moves (base s) b); auto; [eapply core_step; eauto|eapply step_moves; eauto].
Qed.
Lemma OT_step : forall s e o s', core (base s) -> OB (base s) -> OT s -> e <> Again -> rstep s e = (o, Some s') -> OT s'.
Proof.
  intros s e o s' C (A & Bc & D) T N H. destruct e as [e| | |k]; [|contradiction| |].
  - destruct e; cbn [rstep] in H;
    try (apply lift_some in H; destruct H as (b & H & ->); eapply OT_base; eauto; fail).
    + destruct (op (base s)); try (injection H as <- <-; auto; fail). apply lift_some in H. destruct H as (b & H & ->). eapply OT_base; eauto.
    + destruct (chan (base s)); [injection H as <- <-; auto|]. apply lift_some in H. destruct H as (b & H & ->). eapply OT_base; eauto.
    + destruct (stops (base s) i) eqn:St; apply lift_some in H; destruct H as (b & H & ->); [|eapply OT_base; eauto].
      intros _. right. right. cbn [base w_base]. unfold stops in St. destruct (dp (base s) i) eqn:Ed; try discriminate.
      * apply andb_prop in St. destruct St as [S1 S2]. cbn [step] in H. unfold step_resp, ok in H. rewrite Ed in H. cbn [cn rn w_cn kwait] in H. rewrite S1, S2 in H. cbn [andb] in H.
        injection H as _ <-. fields. apply Nat.eqb_eq in S1. split; auto. intros Y. apply (A S2). apply issuing_calling, Y.
      * pose proof (m_d7 _ C i) as M7. pose proof (m_d58 _ C i) as M5. rewrite Ed in M7, M5.
        apply (settled_moves (base s) b); auto; [eapply core_step; eauto|eapply step_moves; eauto|]. intros Y. apply (Bc M5). apply issuing_calling, Y.
  - cbn [rstep] in H. destruct (op (base s)); try (injection H as <- <-; auto; fail); destruct (tset s) eqn:Et; injection H as <- <-; auto; intros _; left; auto.
  - cbn [rstep] in H. destruct (armed s) eqn:Ea; [|injection H as <- <-; auto].
    destruct (kp (base s) k) eqn:Ek; try (injection H as <- <-; auto; fail). apply lift_some in H. destruct H as (b & H & ->).
    cbn [step] in H. unfold ok in H. rewrite Ek in H. injection H as _ <-. intros _. right. left. exists k. cbn. rewrite upd_same. discriminate.
Qed.
Lemma rrun_once : forall es s o s', core (base s) -> OB (base s) -> OT s -> once es -> rrun s es = (o, Some s') -> OB (base s') /\ OT s'.
Proof.
  induction es as [|e es IH]; cbn [rrun]; intros s o s' C A T N H; [injection H as <- <-; auto|].
  destruct (rstep s e) as [o1 [s1|]] eqn:E; [|discriminate]. destruct (rrun s1 es) as [o2 s2] eqn:F. injection H as <- ->.
  assert (Ne : e <> Again) by (intros ->; apply N; cbn; auto).
  assert (N' : once es) by (intros Q; apply N; cbn; auto).
  pose proof (OT_step s e o1 s1 C A T Ne E) as T1.
  destruct (base_step s e o1 s1 E) as [(e' & Es & _)|[[-> Es]|(-> & _)]]; [| |contradiction].
  - apply (IH s1 o2 s'); auto; [eapply core_step; eauto|eapply OB_step; eauto].
  - apply (IH s1 o2 s'); auto; rewrite Es; auto.
Qed.
Lemma OB_init : OB m_init. Proof. split; [|split]; cbn; try discriminate; tauto. Qed.
Lemma OT_init : OT r_init. Proof. intros Q. discriminate. Qed.
Lemma once_not_after : forall es s, once es -> not_after_each s es.
Proof.
  induction es as [|e es IH]; cbn [not_after_each]; intros s N; auto. split; [intros ->; destruct N; cbn; auto|].
  destruct (rstep s e) as [o [s1|]]; auto. apply IH. intros Q. apply N. cbn. auto.
Qed.

(** * The timer of a MultiRequest whose Results waited *)
Definition WT (s : rs) : Prop := op (base s) = RW -> sig (base s) = true -> armed s = false.
Lemma sig_step : forall s e o s', step s e = (o, Some s') ->
  (op s = RW -> op s' = RW /\ (forall l, ~ In (OResult l) o) \/ sig s = true) /\
  (op s' = RW -> sig s' = true -> op s = RW /\ (sig s = true \/ exists i, e = Resp i /\ stops s i = true)).
Proof.
  intros s e o s' H. destruct e as [| | |i|j| |i|j|]; cbn [step] in H; unfold ok in H.
  - destruct (op s) eqn:Eo; injection H as <- <-; fields; rewrite ?Eo; split; try discriminate; auto; try (intros _; left; split; auto; fail).
  - destruct (op s) eqn:Eo; injection H as <- <-; fields; rewrite ?Eo; split; try discriminate; auto; try (intros _; left; split; auto; fail).
  - destruct (op s) eqn:Eo; injection H as <- <-; fields; rewrite ?Eo; split; try discriminate; auto; try (intros _; left; split; auto; fail).
  - destruct (i <? rn s); [|injection H as <- <-; split; auto]. destruct (dp s i); injection H as <- <-; fields; split; auto.
    intros E. left. split; auto. intros l [Q|[]]; discriminate.
  - destruct (kp s j) eqn:E; injection H as <- <-; fields; split; auto.
  - destruct (op s) eqn:Eo; try (injection H as <- <-; rewrite ?Eo; split; try discriminate; auto; fail). destruct (chan s); [|injection H as <- <-; rewrite Eo; split; discriminate].
    destruct (chq s); [destruct (closed s)|]; injection H as <- <-; fields; rewrite ?Eo; split; discriminate.
  - unfold step_resp, ok in H. destruct (dp s i) eqn:Ed; try (injection H as <- <-; fields; split; auto; fail).
    + destruct (lock s); [injection H as <- <-; split; auto|]. destruct (chan s); injection H as <- <-; fields; split; auto.
    + cbn [cn rn w_cn kwait] in H. destruct ((S (cn s) =? rn s) && kwait s) eqn:Ec; injection H as <- <-; fields; split; auto.
      intros E _. split; auto. right. exists i. split; auto. unfold stops. rewrite Ed. exact Ec.
    + destruct (closed s); [discriminate|]. destruct (chan s); [|injection H as <- <-; split; auto]. destruct (length (chq s) <? n); injection H as <- <-; fields; split; auto.
    + destruct (closed s); [discriminate|]. injection H as <- <-. fields. split; auto.
  - pose proof H as H0. apply canc_frame in H. destruct H as [[-> ->]|(o1 & s1 & k1 & Sf & _ & -> & Eo)]; [split; auto|].
    pose proof (fail_op _ _ _ _ _ Sf) as (A1 & _). pose proof (step_fail_frame _ _ _ _ _ Sf) as (_ & Fr & _).
    assert (As : sig s1 = sig s).
    { destruct (kp s j); cbn [step_fail] in Sf; try discriminate; try (injection Sf as <- <- <-; auto; fail).
      - destruct (lock s); [discriminate|]. injection Sf as <- <- <-. auto.
      - destruct (i <? n); [destruct (slots s i)|]; injection Sf as <- <- <-; auto.
      - destruct (slots s i); [|discriminate]. injection Sf as <- <- <-. auto.
      - unfold fail_req in Sf. destruct (dp s i); injection Sf as <- <- <-; auto.
      - destruct (dp s i); try discriminate. injection Sf as <- <- <-. auto. }
    fields. rewrite A1, As. split; auto. intros E. left. split; auto. intros l Q.
    assert (Q1 : In (OResult l) o1) by (destruct Eo as [[-> _]|[-> _]]; auto; apply in_app_or in Q; destruct Q as [Q|[Q|[]]]; [auto|discriminate]).
    assert (In l (results o1)) by (unfold results; apply in_flat_map; exists (OResult l); cbn; auto). rewrite Fr in H. destruct H.
  - unfold step_owner, ok in H. destruct (op s) eqn:Eo.
    6: { assert (k = KEnd \/ k <> KEnd) as [Ek|Ek] by (destruct k; auto; right; discriminate).
      { subst k. injection H as <- <-. fields. split; discriminate. }
      assert (H' : match step_fail s k with KPanic => ([OPanicNil], None) | KBlock => ([], Some s) | KNext o s k => (o, Some (w_op s (OFail m k))) end = (o, Some s')) by (destruct k; auto; contradiction). clear H.
      split; [discriminate|]. destruct (step_fail s k) as [| |o1 s1 k1] eqn:Sf; [discriminate|injection H' as <- <-; rewrite Eo; discriminate|]. injection H' as <- <-. fields. discriminate. }
    all: split; try discriminate.
    all: try (injection H as <- <-; fields; rewrite ?Eo; discriminate).
    + destruct (kfail s); injection H as <- <-; fields; discriminate.
    + unfold fail_req in H. destruct (dp s i); injection H as <- <-; fields; discriminate.
    + destruct (dp s i); injection H as <- <-; fields; rewrite ?Eo; discriminate.
    + injection H as <- <-. fields. destruct (kfail s && negb (cn s =? rn s)); discriminate.
    + destruct (lock s); injection H as <- <-; fields; rewrite ?Eo; [discriminate|]. destruct m; discriminate.
    + destruct (cn s <? rn s); injection H as <- <-; fields; discriminate.
    + destruct (sig s); injection H as <- <-; auto.
    + destruct (sig s) eqn:Es; injection H as <- <-; fields; [discriminate|]. congruence.
    + destruct (lock s); injection H as <- <-; fields; rewrite ?Eo; discriminate.
    + destruct l as [|x l]; [injection H as <- <-; fields; discriminate|]. destruct (closed s); [discriminate|]. destruct (length (chq s) <? rn s); injection H as <- <-; fields; rewrite ?Eo; discriminate.
    + destruct (cn s =? rn s); injection H as <- <-; fields; discriminate.
    + destruct (closed s); [discriminate|]. injection H as <- <-; fields; discriminate.
Qed.
(** what a step does to the timer *)
Lemma timer_step : forall s e o s', rstep s e = (o, Some s') ->
  (armed s' = true -> armed s = true \/ e = SetTimeout /\ base s' = base s /\ op (base s) <> RW) /\
  ((exists e', step (base s) e' = (o, Some (base s')) /\ forall i, e' = Resp i -> stops (base s) i = true -> armed s' = false) \/
   o = [] /\ base s' = base s \/ o = [] /\ op (base s) = OEnd /\ op (base s') = O0).
Proof.
  intros s e o s' H. destruct e as [e| | |k].
  - destruct e; cbn [rstep] in H;
    try (apply lift_some in H; destruct H as (b & H & ->); split; [auto|]; left; eexists; split; [exact H|]; intros; discriminate).
    + destruct (op (base s)); try (injection H as <- <-; auto; fail). apply lift_some in H. destruct H as (b & H & ->). split; [auto|]. left. exists Issue. split; [exact H|]. discriminate.
    + destruct (chan (base s)); [injection H as <- <-; auto|]. apply lift_some in H. destruct H as (b & H & ->). split; [auto|]. left. exists Each. split; [exact H|]. discriminate.
    + destruct (stops (base s) i) eqn:St; apply lift_some in H; destruct H as (b & H & ->).
      * split; [intros Q; discriminate Q|]. left. exists (Resp i). split; [exact H|]. intros; reflexivity.
      * split; [intros Q; left; exact Q|]. left. exists (Resp i). split; [exact H|]. intros j Q. injection Q as <-. rewrite St. discriminate.
  - cbn [rstep] in H. destruct (op (base s)) eqn:Eo; injection H as <- <-; auto 8.
  - cbn [rstep] in H. destruct (op (base s)) eqn:Eo; try (injection H as <- <-; auto; fail); destruct (tset s); injection H as <- <-; auto; (split; [right; cbn; split; auto; split; auto; congruence|auto]).
  - cbn [rstep] in H. destruct (armed s) eqn:Ea; [|injection H as <- <-; rewrite Ea; auto].
    destruct (kp (base s) k); try (injection H as <- <-; rewrite Ea; auto; fail). apply lift_some in H. destruct H as (b & H & ->). split; [auto|]. left. exists (Cancel k). split; [exact H|]. discriminate.
Qed.
Lemma WT_step : forall s e o s', WT s -> rstep s e = (o, Some s') -> WT s'.
Proof.
  intros s e o s' W H. destruct (timer_step s e o s' H) as [A [(e' & E & St)|[[-> E]|(-> & E1 & E2)]]]; intros Q1 Q2.
  - destruct (sig_step _ _ _ _ E) as [_ Sg]. destruct (Sg Q1 Q2) as [X [Y|(i & Y & Z)]].
    + destruct (armed s') eqn:Ea; auto. destruct A as [A|(_ & _ & A)]; auto; [|contradiction]. rewrite (W X Y) in A. discriminate.
    + exact (St i Y Z).
  - rewrite E in *. destruct (armed s') eqn:Ea; auto. destruct A as [A|(_ & _ & A)]; auto; [|contradiction]. rewrite (W Q1 Q2) in A. discriminate.
  - congruence.
Qed.
Lemma WT_run : forall es s o s', WT s -> rrun s es = (o, Some s') -> WT s'.
Proof.
  induction es as [|e es IH]; cbn [rrun]; intros s o s' W H; [injection H as <- <-; auto|].
  destruct (rstep s e) as [o1 [s1|]] eqn:E; [|discriminate]. destruct (rrun s1 es) as [o2 s2] eqn:F. injection H as <- ->.
  exact (IH s1 o2 s' (WT_step s e o1 s1 W E) F).
Qed.
Lemma off_run : forall es s o s', ~ In SetTimeout es -> armed s = false -> rrun s es = (o, Some s') -> armed s' = false.
Proof.
  induction es as [|e es IH]; cbn [rrun]; intros s o s' N K H; [injection H as <- <-; auto|].
  destruct (rstep s e) as [o1 [s1|]] eqn:E; [|discriminate]. destruct (rrun s1 es) as [o2 s2] eqn:F. injection H as <- ->.
  apply (IH s1 o2); auto; [intros Q; apply N; cbn; auto|]. destruct (timer_step s e o1 s1 E) as [A _].
  destruct (armed s1); auto. destruct A as [A|[A _]]; auto; [congruence|]. destruct N. cbn. auto.
Qed.
Lemma waited_run : forall es s o s', WT s -> ~ In SetTimeout es -> op (base s) = RW -> rrun s es = (o, Some s') -> results o <> [] -> armed s' = false.
Proof.
  induction es as [|e es IH]; cbn [rrun]; intros s o s' W N D H Ro; [injection H as <- <-; destruct Ro; auto|].
  destruct (rstep s e) as [o1 [s1|]] eqn:E; [|discriminate]. destruct (rrun s1 es) as [o2 s2] eqn:F. injection H as <- ->.
  assert (Ne : e <> SetTimeout) by (intros ->; apply N; cbn; auto). assert (N' : ~ In SetTimeout es) by (intros Q; apply N; cbn; auto).
  pose proof (WT_step s e o1 s1 W E) as W1. destruct (timer_step s e o1 s1 E) as [A T].
  assert (K : (op (base s1) = RW /\ results o1 = []) \/ armed s1 = false).
  { destruct T as [(e' & Es & _)|[[-> Es]|(_ & Es & _)]]; [|rewrite Es; auto|congruence].
    destruct (sig_step _ _ _ _ Es) as [Sg _]. destruct (Sg D) as [[X Y]|X].
    - left. split; auto. destruct (results o1) as [|l r] eqn:Er; auto. assert (In l (results o1)) as I by (rewrite Er; left; auto).
      unfold results in I. apply in_flat_map in I. destruct I as (x & I1 & I2). destruct x; try destruct I2; try contradiction. subst. destruct (Y l I1).
    - right. destruct (armed s1) eqn:Ea; auto. destruct A as [A|[A _]]; auto; [|contradiction]. rewrite (W D X) in A. discriminate. }
  destruct K as [[K1 K2]|K]; [|exact (off_run es s1 o2 s' N' K F)].
  apply (IH s1 o2 s'); auto. rewrite results_app, K2 in Ro. auto.
Qed.

(** * Checking a given schedule *)
Fixpoint naeb (s : rs) (es : list rev) : bool :=
  match es with
  | [] => true
  | e :: es =>
      (match e with Again => match chan (base s) with None => true | Some _ => false end | _ => true end) &&
      match rstep s e with (_, Some s') => naeb s' es | _ => true end
  end.
Lemma naeb_ok : forall es s, naeb s es = true -> not_after_each s es.
Proof.
  induction es as [|e es IH]; cbn [naeb not_after_each]; intros s H; auto. apply andb_prop in H. destruct H as [H1 H2]. split.
  - intros ->. destruct (chan (base s)); [discriminate|reflexivity].
  - destruct (rstep s e) as [o [s1|]]; auto.
Qed.
