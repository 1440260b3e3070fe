(** Properties of MultiRequest. *)
From Coq Require Import List Bool Arith Lia Permutation.
Import ListNotations.
From Verif Require Import MultiModel MultiSpec MultiProofs MultiTrace MultiLive.

Lemma start : forall es t s, run m_init es = (t, Some s) -> reach t s.
Proof. intros es t s H. apply (run_reach es [] m_init t s reach0 H). Qed.
Lemma known : forall es t s, run m_init es = (t, Some s) -> TI t s.
Proof. intros. eapply reach_TI, start; eauto. Qed.
(** a crash adds one observation, the panic *)
Lemma any_run : forall es t so, run m_init es = (t, so) -> exists t' s', TI t' s' /\ reach t' s' /\
  (t = t' \/ t = t' ++ [OPanicSend] \/ t = t' ++ [OPanicClose] \/ t = t' ++ [OPanicNil]).
Proof.
  intros es t [s|] H.
  - exists t, s. split; [eapply known; eauto|]. split; [eapply start; eauto|auto].
  - destruct (crash_reach es [] m_init t reach0 H) as (e & s1 & o1 & o2 & R & E & ->). cbn in R. exists o1, s1. split; [apply reach_TI; auto|]. split; auto.
    right. destruct (crash_cases s1 e o2 E) as [(-> & _)|[(-> & _)|(-> & _)]]; auto.
Qed.
Lemma panic_neutral : forall t t', (t = t' \/ t = t' ++ [OPanicSend] \/ t = t' ++ [OPanicClose] \/ t = t' ++ [OPanicNil]) ->
  issued t = issued t' /\ performed t = performed t' /\ received t = received t' /\ results t = results t' /\
  (forall l, In (OResult l) t <-> In (OResult l) t') /\ (forall k, In (OCancelled k) t <-> In (OCancelled k) t').
Proof.
  intros t t' [->|[->|[->| ->]]]; rewrite ?issued_app, ?performed_app, ?received_app, ?results_app; cbn; rewrite ?app_nil_r; (split; [auto|split; [auto|split; [auto|split; [auto|]]]]).
  all: split; intros x; rewrite ?in_app_iff; cbn; intuition discriminate.
Qed.
Lemma result_in : forall t l, In (OResult l) t <-> In l (results t).
Proof.
  intros t l. unfold results. rewrite in_flat_map. split.
  - intros H. exists (OResult l). cbn. auto.
  - intros (o & H & X). destruct o; cbn in X; intuition congruence.
Qed.
Lemma done_performed : forall t s, TI t s -> all_performed t -> forall i, i < pre s -> dp s i <> D0.
Proof. intros t s T A i Hi. apply (t_perf t s T). apply A. rewrite (t_iss t s T). apply in_seq. lia. Qed.

Lemma NoDup_app_l {A} (a b : list A) : NoDup (a ++ b) -> NoDup a.
Proof. induction a; cbn; intros H; [constructor|]. inversion H; subst. constructor; auto. intros X. apply H2. apply in_app_iff. auto. Qed.

Lemma no_panics : forall u v, reach u v -> ~ In OPanicSend u /\ ~ In OPanicClose u /\ ~ In OPanicNil u.
Proof.
  intros u v Q. induction Q as [|u v e o v' Q (I1 & I2 & I3) E]; [cbn; auto|]. pose proof (step_tr v e o v' (reach_core _ _ Q) E) as X. rewrite !in_app_iff.
  assert (~ In OPanicSend o /\ ~ In OPanicClose o /\ ~ In OPanicNil o); [|tauto].
  inversion X; subst; try (cbn; intuition discriminate).
  match goal with A : _ \/ _ |- _ => destruct A as [[_ ->]|[_ ->]]; cbn; intuition discriminate end.
Qed.

(** * C50: Results *)
Theorem C50_one_response_per_request : forall es t so l, run m_init es = (t, so) -> In (OResult l) t ->
  Permutation l (issued t) /\ issued t = seq 0 (length l) /\ results t = [l].
Proof.
  intros es t so l H I. destruct (any_run es t so H) as (t' & s' & T & _ & P). apply panic_neutral in P. destruct P as (P1 & _ & _ & P4 & P5 & _).
  apply P5 in I. rewrite P1, P4. apply result_in in I. pose proof (t_res _ _ T) as R. unfold res_ok in R.
  destruct (results t') as [|l1 [|]] eqn:E; [destruct I| |contradiction]. destruct I as [->|[]]. destruct R as (R1 & _ & R2 & _).
  assert (Is : issued t' = seq 0 (rn s')) by (rewrite (t_iss _ _ T); unfold pre; rewrite R1; auto).
  rewrite Is. split; auto. split; auto. rewrite (Permutation_length R2), seq_length. auto.
Qed.
Theorem C50_results_returns : forall es t s, run m_init es = (t, Some s) -> stuck s -> all_performed t ->
  user_free s /\ (op s = OEnd -> (exists l, In (OResult l) t) \/ In OEach t).
Proof.
  intros es t s H K A. pose proof (known es t s H) as T. pose proof (t_core _ _ T) as C.
  destruct (stuck_cases t s C (t_sent _ _ T) K) as (D & _ & O). split.
  - destruct O as [|[|[Q L]]]; [left; auto|right; auto|]. exfalso. rewrite (m_cn _ C) in L. destruct (sumf_ex _ _ L) as (i & Hi & E).
    destruct (D i) as [X|X]; rewrite X in E; try discriminate. apply (done_performed t s T A i); auto. unfold pre. rewrite Q. auto.
  - intros Q. pose proof (t_res _ _ T) as R. unfold res_ok in R. destruct (results t) as [|l r] eqn:E.
    + right. apply (t_each _ _ T). auto.
    + left. exists l. apply result_in. rewrite E. cbn; auto.
Qed.
Theorem C50_all_calls_end : forall es t s, run m_init es = (t, Some s) -> exists n, forall fs, effective s fs -> length fs <= n.
Proof.
  intros es t s H. pose proof (known es t s H) as T. destruct (idle_reach t s (start es t s H)) as [n B].
  exists (work n s). intros fs. apply (effective_bound n fs t); auto.
Qed.
(** three requests, completed in the order 2, 0, 1, the last while Results waits *)
Definition ex50 : list ev :=
  [Issue; Owner; Issue; Owner; Issue; Owner; Answer 2] ++ repeat (Resp 2) 4 ++ [Answer 0; Resp 0; Resp 0; Results; Owner; Owner] ++ repeat (Resp 0) 2 ++
  repeat Owner 4 ++ [Answer 1; Resp 1; Resp 1; Resp 1; Owner; Resp 1; Owner; Owner; Owner].
Example C50_ex : fst (run m_init ex50) = [OIssued 0; OIssued 1; OIssued 2; OPerform 2; OPerform 0; OPerform 1; OResult [2; 0; 1]].
Proof. reflexivity. Qed.
Lemma upd_id : forall (s : st) e, internal e -> match e with Resp i => dp s i = D0 \/ dp s i = DD | Canc k => kp s k = KIdle \/ kp s k = KEnd | _ => op s = O0 \/ op s = OEnd end -> step s e = ([], Some s).
Proof.
  intros s e I H. destruct e; try contradiction; cbn [step].
  - unfold step_resp. destruct H as [-> | ->]; auto.
  - unfold step_canc. destruct H as [-> | ->]; auto.
  - unfold step_owner. destruct H as [-> | ->]; auto.
Qed.
Example C50_ex_stuck : exists t s, run m_init ex50 = (t, Some s) /\ stuck s /\ all_performed t.
Proof.
  eexists _, _. split; [vm_compute; reflexivity|]. split.
  - intros e I. apply upd_id; auto. destruct e as [| | | | | |i|k|]; try contradiction; cbn; auto. destruct i as [|[|[|i]]]; auto.
  - intros i. cbn. intuition.
Qed.

(** * C51: Each *)
Theorem C51_each_once_then_end_partial : forall es t so, run m_init es = (t, so) ->
  NoDup (received t) /\ (forall i, In i (received t) -> In i (issued t) /\ In i (performed t)) /\
  forall t1 t2, t = t1 ++ OEOF :: t2 -> Permutation (received t1) (issued t) /\ received t2 = [].
Proof.
  intros es t so H. destruct (any_run es t so H) as (t' & s' & T & _ & P0). pose proof (panic_neutral t t' P0) as (P1 & P2 & P3 & _).
  destruct (t_sent _ _ T) as [N I]. pose proof (t_core _ _ T) as C.
  assert (Nr : NoDup (received t')). { unfold avail in N. apply NoDup_app_l in N. auto. }
  assert (Ip : forall i, In i (received t') -> i < rn s' /\ dp s' i <> D0).
  { intros i Hi. assert (Q : put (dp s' i) = true) by (apply I; unfold avail; apply in_app_iff; auto).
    assert (Q' : dp s' i <> D0) by (intros X; rewrite X in Q; discriminate). split; auto. apply (small s' C); auto. }
  rewrite P1, P2, P3. split; auto. split.
  - intros i Hi. destruct (Ip i Hi) as [A B]. split; [|apply (t_perf _ _ T); auto]. rewrite (t_iss _ _ T). apply in_seq. split; [lia|].
    assert (received t' <> []) by (intros X; rewrite X in Hi; contradiction). destruct (t_recv _ _ T H0) as [Q _]. unfold pre. rewrite Q. lia.
  - assert (Main : forall t1 t2, t' = t1 ++ OEOF :: t2 -> Permutation (received t1) (issued t') /\ received t2 = []).
    { intros t1 t2 E. destruct (t_eof _ _ T t1 t2 E) as [Q1 Q2]. assert (Is : issued t' = seq 0 (rn s')) by (rewrite (t_iss _ _ T); unfold pre; rewrite Q2; auto).
      rewrite Is. split; auto. rewrite E, received_app in Nr, Ip. cbn [received flat_map] in Nr, Ip. fold (received t2) in Nr, Ip.
      destruct (received t2) as [|x r] eqn:R; auto. exfalso. cbn [app] in Nr. apply NoDup_remove_2 in Nr. apply Nr. apply in_app_iff. left.
      apply (Permutation_in (l := seq 0 (rn s'))); [apply Permutation_sym; auto|]. apply in_seq. destruct (Ip x); [apply in_app_iff; right; cbn; auto|lia]. }
    intros t1 t2 E. destruct P0 as [->|P0]; [auto|].
    assert (exists p, t = t' ++ [p] /\ p <> OEOF /\ received [p] = []) as (p & Ep & Np & Rp) by (destruct P0 as [->|[->| ->]]; eexists; (split; [reflexivity|split; [discriminate|auto]])).
    rewrite Ep in E. apply snoc_split in E. destruct E as [[E _]|(t3 & -> & E)]; [contradiction|]. destruct (Main t1 t3 E) as [M1 M2]. split; auto.
    rewrite received_app, M2, Rp. auto.
Qed.
Theorem C51_no_panic_partial : forall es t so, run m_init es = (t, so) -> window_free m_init es ->
  ~ In OPanicSend t /\ ~ In OPanicClose t /\ (uncancelled es -> exists s, so = Some s).
Proof.
  intros es t so H W. pose proof (window_run es m_init core_init WI_init W) as R. rewrite H in R.
  destruct (any_run es t so H) as (t' & s' & T & Rc & P).
  pose proof no_panics as Cl.
  destruct (Cl _ _ Rc) as (C1 & C2 & _). split; [|split].
  - destruct so as [s|]; [apply (Cl t s); eapply start; eauto|]. destruct R as [o1 R]. intros X.
    destruct P as [->|[->|[->| ->]]]; try (apply app_inj_tail in R as [_ R]; discriminate); [tauto|]. apply in_app_iff in X. cbn in X. intuition discriminate.
  - destruct so as [s|]; [apply (Cl t s); eapply start; eauto|]. destruct R as [o1 R]. intros X.
    destruct P as [->|[->|[->| ->]]]; try (apply app_inj_tail in R as [_ R]; discriminate); [tauto|]. apply in_app_iff in X. cbn in X. intuition discriminate.
  - intros U. destruct so as [s|]; [eauto|]. destruct R as [o1 R]. exfalso.
    apply (quiet_run es m_init core_init ltac:(auto) eq_refl ltac:(discriminate) U t H). rewrite R. apply in_app_iff. cbn. auto.
Qed.
(** when nothing can move any more the reader finds the rest of the responses, then the end *)
Theorem C51_channel_ends_partial : forall es t s, run m_init es = (t, Some s) -> stuck s -> all_performed t -> In OEach t ->
  exists l s', run s (repeat Take (S (length l))) = (map ORecv l ++ [OEOF], Some s') /\ Permutation (received t ++ l) (issued t).
Proof.
  intros es t s H K A E. pose proof (known es t s H) as T. pose proof (t_core _ _ T) as C. pose proof (start es t s H) as R.
  apply (t_each _ _ T) in E. destruct E as [Oe Ch].
  destruct (stuck_cases t s C (t_sent _ _ T) K) as (D & _ & _).
  assert (Pr : pre s = rn s) by (unfold pre; rewrite Oe; auto).
  assert (Cn : cn s = rn s).
  { pose proof (sumf_le1 (fun i => c_cnt (dp s i)) (rn s) ltac:(intros; apply cnt_le1)) as Le. pose proof (m_cn _ C) as Mc. unfold counted in Mc.
    destruct (Nat.eq_dec (cn s) (rn s)); auto. destruct (sumf_ex (fun i => c_cnt (dp s i)) (rn s)) as (i & Hi & X); [lia|].
    exfalso. destruct (D i) as [Y|Y]; rewrite Y in X; [|discriminate]. apply (done_performed t s T A i); auto. lia. }
  assert (Cl : closed s = true). { destruct (end_reach t s R Oe Ch Cn) as [|[i X]]; auto. destruct (D i); congruence. }
  pose proof (avail_all t s C (t_sent _ _ T) Cn) as P. unfold avail in P.
  assert (results t = []) as Rn. { pose proof (t_res _ _ T) as Rs. unfold res_ok in Rs. destruct (results t) as [|l1 [|]]; auto; [|contradiction]. destruct Rs as (_ & Q & _). contradiction. }
  pose proof (m_drained _ C) as Md. rewrite Oe in Md. unfold undrained in P. rewrite Rn, Oe, Md in P. cbn in P. rewrite app_nil_r in P.
  exists (chq s), (w_chq s []). rewrite (t_iss _ _ T), Pr. split; auto.
  clear - Oe Ch Cl. destruct (chan s) as [c|] eqn:Ec; [clear Ch|contradiction].
  assert (G : forall l s, op s = OEnd -> chan s = Some c -> closed s = true -> chq s = l -> run s (repeat Take (S (length l))) = (map ORecv l ++ [OEOF], Some (w_chq s []))).
  { induction l as [|x l IH]; intros u O1 O2 O3 O4.
    - cbn. rewrite O1, O2, O4, O3. cbn. f_equal. f_equal. destruct u; cbn in *; subst; auto.
    - change (repeat Take (S (length (x :: l)))) with (Take :: repeat Take (S (length l))). cbn [run]. cbn [step]. rewrite O1, O2, O4. rewrite (IH (w_chq u l)); auto. }
  apply G; auto.
Qed.
Definition issue (n : nat) : list ev := concat (repeat [Issue; Owner] n).
(** a completion that begins while Each fills the channel: the channel is closed twice *)
Theorem C51_close_twice_refuted : exists es t, run m_init es = (t, None) /\ In OPanicClose t /\ uncancelled es.
Proof.
  exists (issue 1 ++ [Each; Owner; Owner; Owner; Answer 0; Resp 0; Resp 0; Resp 0; Owner; Owner; Owner; Owner; Resp 0]). eexists. split; [vm_compute; reflexivity|].
  split; [cbn; tauto|]. intros k. cbn. intuition discriminate.
Qed.
(** ... or Each sends to the channel which the last completion has closed *)
Theorem C51_send_on_closed_refuted : exists es t, run m_init es = (t, None) /\ In OPanicSend t /\ uncancelled es.
Proof.
  exists (issue 2 ++ [Answer 0] ++ repeat (Resp 0) 4 ++ [Each; Owner; Owner; Owner; Answer 1; Resp 1; Resp 1; Resp 1; Resp 1; Owner]). eexists. split; [vm_compute; reflexivity|].
  split; [cbn; tauto|]. intros k. cbn. intuition discriminate.
Qed.
Definition ex51 : list ev := issue 3 ++ [Answer 2] ++ repeat (Resp 2) 4 ++ [Each] ++ repeat Owner 7 ++ [Take; Answer 0] ++ repeat (Resp 0) 4 ++ [Answer 1; Resp 1; Resp 1; Take; Resp 1; Resp 1; Resp 1; Take; Take].
Example C51_ex : fst (run m_init ex51) = [OIssued 0; OIssued 1; OIssued 2; OPerform 2; OEach; ORecv 2; OPerform 0; OPerform 1; ORecv 0; ORecv 1; OEOF].
Proof. reflexivity. Qed.
Fixpoint window_freeb (s : st) (es : list ev) : bool :=
  match es with
  | [] => true
  | e :: es => match e, op s with Resp i, (E4 _ | E5 | E6 | E7) => match dp s i with D1 => false | _ => true end | _, _ => true end
     && match step s e with (_, Some s') => window_freeb s' es | _ => true end
  end.
Lemma window_freeb_ok : forall es s, window_freeb s es = true -> window_free s es.
Proof.
  induction es as [|e es IH]; cbn [window_freeb window_free]; auto. intros s H. apply andb_prop in H as [H1 H2]. split.
  - intros i -> W. unfold in_window in W. destruct (op s); try contradiction; destruct (dp s i); discriminate.
  - destruct (step s e) as [o [s1|]]; auto.
Qed.
Example C51_ex_free : window_free m_init ex51 /\ uncancelled ex51.
Proof. split; [apply window_freeb_ok; vm_compute; reflexivity|]. intros k. cbn. intuition discriminate. Qed.

(** * C52: the context *)
Theorem C52_results_release_partial : forall es t s l, run m_init es = (t, Some s) -> In (OResult l) t -> reg s = false.
Proof.
  intros es t s l H I. pose proof (known es t s H) as T. apply result_in in I. pose proof (t_res _ _ T) as R. unfold res_ok in R.
  destruct (results t) as [|l1 [|]]; [destruct I| |contradiction]. tauto.
Qed.
(** if at least one request was completed after Each returned *)
Theorem C52_each_releases_partial : forall es t s t1 t2, run m_init es = (t, Some s) -> stuck s -> all_performed t ->
  t = t1 ++ OEach :: t2 -> performed t2 <> [] -> reg s = false.
Proof.
  intros es t s t1 t2 H K A E L. pose proof (known es t s H) as T. pose proof (t_core _ _ T) as C. pose proof (start es t s H) as R.
  assert (Oe : op s = OEnd /\ chan s <> None) by (apply (t_each _ _ T); rewrite E; apply in_elt). destruct Oe as [Oe Ch].
  destruct (stuck_cases t s C (t_sent _ _ T) K) as (D & _ & _).
  assert (Cn : cn s = rn s).
  { pose proof (sumf_le1 (fun i => c_cnt (dp s i)) (rn s) ltac:(intros; apply cnt_le1)) as Le. pose proof (m_cn _ C) as Mc. unfold counted in Mc.
    destruct (Nat.eq_dec (cn s) (rn s)); auto. destruct (sumf_ex (fun i => c_cnt (dp s i)) (rn s)) as (i & Hi & X); [lia|].
    exfalso. destruct (D i) as [Y|Y]; rewrite Y in X; [|discriminate]. apply (done_performed t s T A i); auto. unfold pre. rewrite Oe. auto. }
  assert (Cl : closed s = true). { destruct (end_reach t s R Oe Ch Cn) as [|[i X]]; auto. destruct (D i); congruence. }
  destruct (t_late _ _ T Cl) as [[i X]|[X|X]]; auto; [destruct (D i); congruence|]. specialize (X t1 t2 E). contradiction.
Qed.
(** everything was completed before Each was called: the reader gets all responses and the end, the context waits for ever *)
Theorem C52_each_of_completed_refuted : exists es t s, run m_init es = (t, Some s) /\ stuck s /\ all_performed t /\ received t = issued t /\ In OEOF t /\ reg s = true.
Proof.
  exists (issue 1 ++ [Answer 0] ++ repeat (Resp 0) 4 ++ [Each] ++ repeat Owner 8 ++ [Take; Take]). eexists _, _. split; [vm_compute; reflexivity|].
  split; [|split; [intros i; cbn; intuition|cbn; auto 10]].
  intros e I. apply upd_id; auto. destruct e as [| | | | | |i|k|]; try contradiction; cbn; auto. destruct i as [|i]; auto.
Qed.
Example C52_ex : exists t1 t2, fst (run m_init ex51) = t1 ++ OEach :: t2 /\ performed t2 = [0; 1].
Proof. exists [OIssued 0; OIssued 1; OIssued 2; OPerform 2]. eexists. split; reflexivity. Qed.

(** * C75: Cancel and Expire *)
Theorem C75_cancel_completes_all : forall es t so k i, run m_init es = (t, so) -> In (OCancelled k) t -> In i (issued t) -> In i (performed t).
Proof.
  intros es t so k i H Ck Ii. destruct (any_run es t so H) as (t' & s' & T & _ & P). apply panic_neutral in P. destruct P as (P1 & P2 & _ & _ & _ & P6).
  apply P6 in Ck. rewrite P1 in Ii. rewrite P2. apply (t_perf _ _ T). intros D. apply (t_canc _ _ T) in Ck. pose proof (m_k _ (t_core _ _ T) k) as Ko. rewrite Ck in Ko.
  destruct Ko as [_ Ko]. apply (Ko i). rewrite (t_iss _ _ T) in Ii. apply in_seq in Ii. unfold exposed, pre in *.
  pose proof (m_op _ (t_core _ _ T)) as Mo. unfold o_ok in Mo. split; [destruct (op s'); lia|]. split; auto. 
  split; intros X; rewrite X in Ii; lia.
Qed.
Theorem C75_cancel_returns : forall es t s k, run m_init es = (t, Some s) -> stuck s -> kp s k <> KIdle -> In (OCancelled k) t.
Proof.
  intros es t s k H K N. pose proof (known es t s H) as T. destruct (stuck_cases t s (t_core _ _ T) (t_sent _ _ T) K) as (_ & D & _).
  apply (t_canc _ _ T). destruct (D k); [contradiction|auto].
Qed.
Theorem C75_after_cancel_results_return : forall es t s k, run m_init es = (t, Some s) -> stuck s -> kp s k <> KIdle -> user_free s.
Proof.
  intros es t s k H K N. pose proof (C75_cancel_returns es t s k H K N) as Ck. apply (C50_results_returns es t s H K).
  intros i Hi. eapply C75_cancel_completes_all; eauto.
Qed.
(** Cancel with one request in flight and one finished; Results is waiting; a request issued afterwards is not possible, see the next example *)
Definition ex75 : list ev := issue 2 ++ [Answer 0] ++ repeat (Resp 0) 4 ++ [Results] ++ repeat Owner 4 ++ [Cancel 5] ++ repeat (Canc 5) 7 ++ repeat (Resp 1) 4 ++ repeat (Canc 5) 2 ++ repeat Owner 3.
Example C75_ex : fst (run m_init ex75) = [OIssued 0; OIssued 1; OPerform 0; OPerform 1; OCancelled 5; OResult [0; 1]].
Proof. reflexivity. Qed.
Example C75_ex_late : fst (run m_init ([Cancel 0; Canc 0; Canc 0; Issue; Owner; Owner] ++ repeat (Resp 0) 4 ++ [Owner])) = [OCancelled 0; OPerform 0; OIssued 0].
Proof. reflexivity. Qed.

(** * C76: no crash by cancelling *)
Theorem C76_no_crash_partial : forall es t so, run m_init es = (t, so) -> atomic_loads m_init es -> ~ In OPanicNil t.
Proof.
  intros es t so H A. destruct so as [s|].
  - apply (no_panics t s (start es t s H)).
  - apply (loads_run es m_init core_init ltac:(split; intros; discriminate) A t H).
Qed.
(** a request is completed between the two loads of its entry *)
Theorem C76_cancel_crashes_refuted : exists es t, run m_init es = (t, None) /\ In OPanicNil t /\ window_free m_init es.
Proof.
  set (es := issue 1 ++ [Cancel 0] ++ repeat (Canc 0) 4 ++ [Answer 0; Resp 0; Resp 0; Resp 0; Canc 0]).
  exists es, [OIssued 0; OPerform 0; OPanicNil]. split; [vm_compute; reflexivity|]. split; [cbn; tauto|]. apply window_freeb_ok. vm_compute. reflexivity.
Qed.

Print Assumptions C50_one_response_per_request.
Print Assumptions C50_results_returns.
Print Assumptions C50_all_calls_end.
Print Assumptions C51_each_once_then_end_partial.
Print Assumptions C51_no_panic_partial.
Print Assumptions C51_channel_ends_partial.
Print Assumptions C51_close_twice_refuted.
Print Assumptions C51_send_on_closed_refuted.
Print Assumptions C52_results_release_partial.
Print Assumptions C52_each_releases_partial.
Print Assumptions C52_each_of_completed_refuted.
Print Assumptions C75_cancel_completes_all.
Print Assumptions C75_cancel_returns.
Print Assumptions C75_after_cancel_results_return.
Print Assumptions C76_no_crash_partial.
Print Assumptions C76_cancel_crashes_refuted.
