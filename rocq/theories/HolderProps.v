(** Properties of a client connection's table of requests in flight: C39 - C43. *)
From Coq Require Import ZArith List Bool Lia Permutation.
Import ListNotations.
From Verif Require Import Base HolderModel HolderSpec HolderProofs HolderPolite.
Open Scope Z_scope.

(** * Executions with a peer that answers each frame at most once, and in time *)
Lemma reach_polite c t : reach c t -> polite t -> timely t -> never_next t /\ CI c t /\ PI c t.
Proof.
  induction 1 as [|c t e o c' R IH E]; intros P T.
  - split; [|split; [exact CI_init|exact PI_init]]. intros p i code body q Q. now destruct p.
  - destruct (IH (polite_pre _ _ P) (timely_pre _ _ T)) as (N & I & J). destruct (polite_step c t e o _ I J N E P T) as (c2 & Q & N2 & J2). injection Q as <-.
    split; [exact N2|]. split; [|exact J2]. now apply (CI_step c t e).
Qed.
Lemma run_polite es t oc : run c_init es = (t, oc) -> polite t -> timely t -> exists c, oc = Some c /\ never_next t /\ CI c t /\ PI c t.
Proof.
  intros E P T. destruct oc as [c|].
  - exists c. split; [reflexivity|]. apply reach_polite; try assumption. now apply (run_reach es).
  - exfalso. destruct (run_crash es t E) as (c1 & t1 & e & o1 & R & Q & ->). destruct (reach_polite _ _ R (polite_pre _ _ P) (timely_pre _ _ T)) as (N & I & J).
    destruct (polite_step c1 t1 e o1 _ I J N Q P T) as (c2 & Q2 & _). discriminate.
Qed.
Lemma step_obs c e o oc : step c e = (o, oc) -> (o = [] \/ exists x, o = [x]) /\ (forall r code body, In (ODone r (Answer code body)) o -> reader c = Some (Some r, code, body)) /\
  (oc = None -> wires o = [] /\ dones o = []).
Proof.
  intro E. destruct e as [|r|id code body| |r code| | |]; cbn [step] in E;
    repeat match type of E with
    | ((match ?x with _ => _ end) = _) => let Q := fresh "Q" in destruct x eqn:Q
    | (let _ := _ in _) = _ => cbv zeta in E
    end; injection E as <- <-; (split; [(now left) || (right; now eexists)|]); (split; [|(discriminate || easy)]);
    intros r0 code0 body0 H; try (now destruct H); destruct H as [H|[]]; try discriminate; injection H as; subst; (reflexivity || (destruct (shut c); discriminate)).
Qed.

(** * C39 *)
(** The k-th frame carries the k-th id of the cycle 1, 2, ..., 2^32-2, 1, ..., whatever the peer does short of
    answering the frame that has not been sent yet. *)
Lemma run_ids es t oc : run c_init es = (t, oc) -> never_next t -> forall k i r, nth_error (wires t) k = Some (i, r) -> i = nth_id (Z.of_nat k).
Proof.
  intros E N k i r Q. destruct oc as [c|].
  - pose proof (CI_reach c t (run_reach es t c E) N) as I. exact (ci_ids _ _ I _ _ Q).
  - destruct (run_crash es t E) as (c1 & t1 & e & o1 & R & S & ->). pose proof (CI_reach _ _ R (never_next_pre _ _ N)) as I.
    destruct (step_obs _ _ _ _ S) as (_ & _ & H). destruct (H eq_refl) as [W _]. rewrite wires_app, W, app_nil_r in Q. exact (ci_ids _ _ I _ _ Q).
Qed.
Theorem C39_ids_follow_the_cycle_partial : forall es t oc, run c_init es = (t, oc) ->
  (forall p i code body q, t = p ++ OGot i code body :: q -> i <> nth_id (nsent p)) ->
  forall k i r, nth_error (wires t) k = Some (i, r) -> i = nth_id (Z.of_nat k) /\ i <> 0 /\ i <> PingId.
Proof.
  intros es t oc E N k i r Q. pose proof (run_ids es t oc E N k i r Q) as ->. split; [reflexivity|]. unfold nth_id, PingId.
  pose proof (Z.mod_pos_bound (Z.of_nat k) (2 ^ 32 - 2) ltac:(lia)). lia.
Qed.
(** fewer than 2^32 - 1 frames: all ids of the connection differ *)
Theorem C39_ids_pairwise_different_partial : forall es t oc, run c_init es = (t, oc) ->
  (forall p i code body q, t = p ++ OGot i code body :: q -> i <> nth_id (nsent p)) ->
  Z.of_nat (length (wires t)) < 2 ^ 32 - 1 -> NoDup (map fst (wires t)).
Proof.
  intros es t oc E N L. apply NoDup_nth_error. intros i j Hi Q. rewrite map_length in Hi. rewrite !nth_error_map in Q.
  destruct (nth_error (wires t) i) as [[a r]|] eqn:A; [|apply nth_error_None in A; lia].
  destruct (nth_error (wires t) j) as [[b r']|] eqn:B; [|discriminate]. cbn in Q. injection Q as <-.
  assert (Hj : (j < length (wires t))%nat) by (apply nth_error_Some; congruence).
  pose proof (run_ids es t oc E N _ _ _ A) as Ea. pose proof (run_ids es t oc E N _ _ _ B) as Eb. rewrite Ea in Eb. unfold nth_id in Eb.
  rewrite !Z.mod_small in Eb by lia. lia.
Qed.
(** a polite and timely peer: any number of frames, and the ids of the frames without an answer differ *)
Theorem C39_in_flight_ids_different : forall es t oc, run c_init es = (t, oc) -> polite t -> timely t ->
  NoDup (map w_id (unanswered t)) /\ forall k i r, nth_error (wires t) k = Some (i, r) -> i = nth_id (Z.of_nat k) /\ i <> 0 /\ i <> PingId.
Proof.
  intros es t oc E P T. destruct (run_polite es t oc E P T) as (c & -> & N & I & J). split; [|now apply (C39_ids_follow_the_cycle_partial es t (Some c))].
  pose proof (un_nd t) as ND. assert (IDS : forall w, In w (unanswered t) -> w_id w = nth_id (w_nth w) /\ 0 <= w_nth w < nsent t /\ nsent t - w_nth w <= X).
  { intros w Q. split; [now apply (un_id c t)|]. split; [apply (un_wires t w Q)|now apply un_timely]. }
  clear - ND IDS. induction (unanswered t) as [|w l IH]; [constructor|]. cbn [map] in *. inversion_clear ND as [|? ? N1 N2]. constructor.
  - intro Q. apply in_map_iff in Q. destruct Q as (w' & Q & H). destruct (IDS w (or_introl eq_refl)) as (A & B & C). destruct (IDS w' (or_intror H)) as (A' & B' & C'). unfold X in *.
    apply N1. apply in_map_iff. exists w'. split; [|exact H]. destruct (Z.lt_trichotomy (w_nth w) (w_nth w')) as [L|[L|L]]; [|now symmetry|].
    + elim (nth_id_far (w_nth w) (w_nth w')); [lia|lia|congruence].
    + elim (nth_id_far (w_nth w') (w_nth w)); [lia|lia|congruence].
  - apply IH; [exact N2|]. intros x H. apply IDS. now right.
Qed.
(** False without the restriction on the peer: a response that carries the id the client is about to use makes
    the next frame carry id 0. *)
Theorem C39_hostile_peer_refuted : exists es t c, run c_init es = (t, Some c) /\ In (OWire 0 7%nat) t.
Proof. exists [Prefetch; Resp 1 0 []; Deliver; Send 7%nat]. eexists. eexists. split; [vm_compute; reflexivity|]. right. now left. Qed.

(** * C40 *)
Lemma answers_ok c t : reach c t -> never_next t -> forall p r code body q, t = p ++ ODone r (Answer code body) :: q ->
  exists id p1 p2, p = p1 ++ OGot id code body :: p2 /\ (forall i b d, ~ In (OGot i b d) p2) /\ In (id, r) (wires p1).
Proof.
  induction 1 as [|c t e o c' R IH E]; intros N p r code body q Q; [now destruct p|]. destruct (step_obs _ _ _ _ E) as ([->|[x ->]] & H & _).
  - rewrite app_nil_r in Q, N. now apply (IH N p r code body q).
  - destruct q as [|y q] using rev_ind.
    + apply app_inj_tail in Q. destruct Q as [-> ->]. pose proof (CI_reach _ _ R (never_next_pre _ _ N)) as I.
      destruct (ci_read _ _ I r code body (H _ _ _ (or_introl eq_refl))) as (id & p1 & p2 & A & B & C). now exists id, p1, p2.
    + clear IHq. rewrite app_comm_cons, app_assoc in Q. apply app_inj_tail in Q. destruct Q as [-> _]. apply (IH (never_next_pre _ _ N) p r code body q). reflexivity.
Qed.
Lemma run_answers es t oc : run c_init es = (t, oc) -> never_next t -> forall p r code body q, t = p ++ ODone r (Answer code body) :: q ->
  exists id p1 p2, p = p1 ++ OGot id code body :: p2 /\ (forall i b d, ~ In (OGot i b d) p2) /\ In (id, r) (wires p1).
Proof.
  intros E N p r code body q Q. destruct oc as [c|].
  - exact (answers_ok c t (run_reach es t c E) N p r code body q Q).
  - destruct (run_crash es t E) as (c1 & t1 & e & o1 & R & S & ->). destruct (step_obs _ _ _ _ S) as (L & H & K). destruct (K eq_refl) as [_ D].
    destruct L as [->|[x ->]].
    + rewrite app_nil_r in Q, N. now apply (answers_ok _ _ R N p r code body q).
    + destruct q as [|y q] using rev_ind.
      * apply app_inj_tail in Q. destruct Q as [_ ->]. discriminate.
      * clear IHq. rewrite app_comm_cons, app_assoc in Q. apply app_inj_tail in Q. destruct Q as [Q _]. now apply (answers_ok _ _ R (never_next_pre _ _ N) p r code body q).
Qed.
(** Whatever the peer sends: a request completed with an answer is completed with the code and body of the
    last response received, and that response carries an id with which this request was sent before; no request
    is sent twice on the connection and none is completed twice. *)
Theorem C40_answers_go_to_their_request : forall es t oc, run c_init es = (t, oc) ->
  (forall p i code body q, t = p ++ OGot i code body :: q -> i <> nth_id (nsent p)) ->
  (forall p r code body q, t = p ++ ODone r (Answer code body) :: q ->
    exists id p1 p2, p = p1 ++ OGot id code body :: p2 /\ (forall i b d, ~ In (OGot i b d) p2) /\ In (id, r) (wires p1)) /\
  NoDup (map snd (wires t)) /\ NoDup (map fst (dones t)).
Proof.
  intros es t oc E N. split; [exact (run_answers es t oc E N)|]. destruct oc as [c|].
  - pose proof (CI_reach c t (run_reach es t c E) N) as I. split; [exact (ci_once _ _ I)|exact (ci_dones _ _ I)].
  - destruct (run_crash es t E) as (c1 & t1 & e & o1 & R & S & ->). pose proof (CI_reach _ _ R (never_next_pre _ _ N)) as I.
    destruct (step_obs _ _ _ _ S) as (_ & _ & K). destruct (K eq_refl) as [W D]. rewrite wires_app, dones_app, W, D, !app_nil_r. split; [exact (ci_once _ _ I)|exact (ci_dones _ _ I)].
Qed.
Lemma run_app es : forall es' c, run c (es ++ es') = match run c es with (o, Some c') => let '(o', c'') := run c' es' in (o ++ o', c'') | x => x end.
Proof.
  induction es as [|e es IH]; intros es' c; cbn [app run]; [now destruct (run c es')|]. destruct (step c e) as [o [c1|]]; [|reflexivity]. rewrite IH.
  destruct (run c1 es) as [o1 [c2|]]; [|reflexivity]. destruct (run c2 es'). now rewrite app_assoc.
Qed.
Lemma run_last es e t oc : run c_init (es ++ [e]) = (t, oc) -> (exists t1 c1 o1, run c_init es = (t1, Some c1) /\ step c1 e = (o1, oc) /\ t = t1 ++ o1) \/ (oc = None /\ run c_init es = (t, None)).
Proof.
  rewrite run_app. destruct (run c_init es) as [t1 [c1|]] eqn:E; intro Q.
  - left. cbn [run] in Q. destruct (step c1 e) as [o [c2|]] eqn:S; injection Q as <- <-; exists t1, c1, o; rewrite ?app_nil_r; now repeat split.
  - right. now injection Q as <- <-.
Qed.
Lemma deliver_idle c o c' : step c Deliver = (o, Some c') -> reader c' = None.
Proof.
  cbn [step]. destruct (reader c) as [[[ir code] body]|] eqn:R; [|intro E; injection E as <- <-; exact R]. destruct ir as [r|]; [|intro E; now injection E as <- <-].
  destruct (rs _ r); intro E; injection E as <- <-; reflexivity.
Qed.
Lemma sent_state c t r : CI c t -> In r (map snd (wires t)) -> (exists o, In (r, o) (dones t)) \/ exists w i, rs c r = RFly w i.
Proof.
  intros I Q. pose proof (ci_sent _ _ I r Q) as S. destruct (rs c r) as [|w i|o] eqn:E; [easy|right; now exists w, i|]. left. exists o. now apply (ci_done _ _ I).
Qed.
(** A polite and timely peer: the client does not crash, and as soon as the read loop has handed over the
    response it is holding, every request whose frame was answered is completed. *)
Theorem C40_every_answered_request_completes : forall es t oc, run c_init (es ++ [Deliver]) = (t, oc) -> polite t -> timely t ->
  oc <> None /\ forall r, In r (map snd (wires t)) -> In r (map w_req (unanswered t)) \/ exists o, In (r, o) (dones t).
Proof.
  intros es t oc E P T. destruct (run_polite _ _ _ E P T) as (c & -> & N & I & J). split; [discriminate|]. intros r Q.
  destruct (run_last _ _ _ _ E) as [(t1 & c1 & o1 & E1 & S & ->)|[X _]]; [|discriminate]. pose proof (deliver_idle _ _ _ S) as D.
  destruct (sent_state c _ r I Q) as [H|(w & i & F)]; [now right|]. left. destruct (pi_fly _ _ J _ _ _ F) as [(x & X1 & X2)|(a & b & X1)]; [|congruence].
  apply in_map_iff. now exists x.
Qed.

(** * C41 *)
(** failures by the connection go to unanswered requests only, after it has closed *)
Definition failed_only (c : conn) (t : list obs) : Prop :=
  forall r o, In (r, o) (dones t) -> o = IOError \/ o = Shutdown -> open c = false /\ In r (map w_req (unanswered t)).
Lemma open_mono c e o c' : step c e = (o, Some c') -> open c = false -> open c' = false /\ forall i code body, ~ In (OGot i code body) o.
Proof.
  intros E O. destruct e as [|r|id code body| |r code| | |]; cbn [step] in E; rewrite ?O in E; cbn [andb] in E;
    repeat match type of E with
    | ((match ?x with _ => _ end) = _) => let Q := fresh "Q" in destruct x eqn:Q
    end; try discriminate; injection E as E1 E2; subst; (split; [first [exact O|reflexivity]|]); intros; intro H; try (now destruct H); destruct H as [H|[]]; discriminate.
Qed.
Lemma un_more t o : (forall i code body, ~ In (OGot i code body) o) -> forall x, In x (unanswered t) -> In x (unanswered (t ++ o)).
Proof.
  induction o as [|y o IH] using rev_ind; intros N x H; [now rewrite app_nil_r|]. rewrite app_assoc, unanswered_snoc.
  assert (H1 : In x (unanswered (t ++ o))) by (apply IH; [|exact H]; intros i code body Q; apply (N i code body); apply in_or_app; now left).
  destruct y as [i r|i code body|r z|]; try exact H1; [apply in_or_app; now left|]. exfalso. apply (N i code body). apply in_or_app. right. now left.
Qed.
Lemma FO_step c t e o c' : CI c t -> PI c t -> failed_only c t -> step c e = (o, Some c') -> failed_only c' (t ++ o).
Proof.
  intros I J F E r x Q X. rewrite dones_app in Q. apply in_app_or in Q. destruct Q as [Q|Q].
  - destruct (F r x Q X) as [O U]. destruct (open_mono _ _ _ _ E O) as [O' G]. split; [exact O'|]. apply in_map_iff in U. destruct U as (w & W & U). apply in_map_iff. exists w. split; [exact W|]. now apply un_more.
  - assert (H : In (ODone r x) o).
    { clear - Q. induction o as [|y o IH]; [easy|]. destruct y; cbn in Q; try (right; now apply IH). destruct Q as [Q|Q]; [injection Q as <- <-; now left|right; now apply IH]. }
    clear Q. destruct e as [|r'|id code body| |r' code| | |]; cbn [step] in E;
    repeat match type of E with
    | ((match ?x with _ => _ end) = _) => let Q := fresh "Q" in destruct x eqn:Q
    end; try discriminate; injection E as E1 E2; subst o; try (now destruct H); destruct H as [H|[]]; try discriminate; injection H as ? ?; subst; try (destruct X; discriminate).
    + exfalso. pose proof (ci_own _ _ I) as IO. destruct (pi_flush _ _ J z z0) as (OP & y & Y1 & Y2 & Y3); [rewrite Q; now left|].
      cbn [with_flush hold rs] in *. assert (S : own (slot_of (hold c) (cntr (w_nth y))) = Some r) by (unfold slot_of; rewrite <- Y2, <- Y3; assumption).
      pose proof (cntr_pos (w_nth y) ltac:(pose proof (un_wires t y Y1); lia)). apply IO in S; [|lia]. congruence.
    + destruct (pi_flush _ _ J z z0) as (OP & y & Y1 & Y2 & Y3); [rewrite Q; now left|]. cbn [complete open with_flush]. split; [exact OP|].
      rewrite unanswered_quiet by exact Coq.Init.Logic.I. apply in_map_iff. exists y. split; [|exact Y1]. apply (pos_req c t y r I Y1). unfold slot_of. rewrite <- Y2, <- Y3. assumption.
Qed.
Lemma reach_FO c t : reach c t -> polite t -> timely t -> failed_only c t.
Proof.
  induction 1 as [|c t e o c' R IH E]; intros P T; [easy|]. destruct (reach_polite c t R (polite_pre _ _ P) (timely_pre _ _ T)) as (_ & I & J).
  apply (FO_step c t e o c' I J); [apply IH; [exact (polite_pre _ _ P)|exact (timely_pre _ _ T)]|exact E].
Qed.
Lemma repeat_snoc {A} (x : A) n : repeat x (S n) = repeat x n ++ [x].
Proof. induction n; [reflexivity|]. cbn [repeat app] in *. now rewrite <- IHn. Qed.
Lemma flush_step c : exists o c', step c Flush = (o, Some c') /\ flush c' = tl (flush c) /\ open c' = open c /\ (forall x, In x o -> exists r z, x = ODone r z /\ (z = IOError \/ z = Shutdown)).
Proof.
  cbn [step]. destruct (flush c) as [|[w i] l] eqn:F; [exists [], c; repeat split; [rewrite F; reflexivity|easy]|].
  destruct (own _) as [r|]; [|eexists; eexists; repeat split; easy].
  destruct (rs _ r); try (eexists; eexists; repeat split; [intros x [<-|[]]; eexists; eexists; split; [reflexivity|destruct (shut _); auto]]); eexists; eexists; repeat split; easy.
Qed.
Lemma flushes n : forall c, exists o c', run c (repeat Flush n) = (o, Some c') /\ flush c' = skipn n (flush c) /\ open c' = open c /\ (forall x, In x o -> exists r z, x = ODone r z /\ (z = IOError \/ z = Shutdown)).
Proof.
  induction n as [|n IH]; intro c; [exists [], c; now repeat split|]. cbn [repeat run]. destruct (flush_step c) as (o & c1 & -> & F & O & H).
  destruct (IH c1) as (o2 & c2 & -> & F2 & O2 & H2). exists (o ++ o2), c2. split; [reflexivity|]. rewrite F2, F, O2, O. split; [destruct (flush c); [now rewrite skipn_nil|reflexivity]|].
  split; [reflexivity|]. intros x Q. apply in_app_or in Q. destruct Q; auto.
Qed.
Lemma quiet_polite t o : (forall x, In x o -> exists r z, x = ODone r z) -> polite t -> timely t -> polite (t ++ o) /\ timely (t ++ o).
Proof.
  revert t. induction o as [|x o IH]; intros t H P T; [now rewrite app_nil_r|]. change (t ++ x :: o) with (t ++ [x] ++ o). rewrite app_assoc.
  destruct (H x (or_introl eq_refl)) as (r & z & ->). apply IH; [intros y Q; apply H; now right| |].
  - intros p i code body q E. destruct q as [|y q] using rev_ind; [apply app_inj_tail in E; now destruct E|]. clear IHq. rewrite app_comm_cons, app_assoc in E. apply app_inj_tail in E. destruct E as [-> _]. now apply (P p i code body q).
  - intros p i rr q E. destruct q as [|y q] using rev_ind; [apply app_inj_tail in E; now destruct E|]. clear IHq. rewrite app_comm_cons, app_assoc in E. apply app_inj_tail in E. destruct E as [-> _]. now apply (T p i rr q).
Qed.
(** The connection is lost at any moment [es] of an execution with a polite and timely peer; the read loop
    hands over the response it holds and both loops end. Then flushing completes: every request sent is
    completed, those the connection failed are exactly those sent, without an answer and not completed
    otherwise, and nothing is completed twice. *)
Theorem C41_loss_fails_the_unanswered_partial : forall es t oc, run c_init (es ++ [Deliver; Close]) = (t, oc) -> polite t -> timely t ->
  exists n o c', run c_init (es ++ [Deliver; Close] ++ repeat Flush n) = (t ++ o, Some c') /\
    (forall r, In r (map snd (wires (t ++ o))) -> exists x, In (r, x) (dones (t ++ o))) /\
    (forall r x, In (r, x) (dones (t ++ o)) -> x = IOError \/ x = Shutdown -> In r (map w_req (unanswered (t ++ o)))) /\
    NoDup (map fst (dones (t ++ o))) /\ wires o = [].
Proof.
  intros es t oc E P T. destruct (run_polite _ _ _ E P T) as (c & -> & N & I & J).
  destruct (flushes (length (flush c)) c) as (o & c' & R & F & O & H). rewrite skipn_all in F.
  assert (Q : run c_init ((es ++ [Deliver; Close]) ++ repeat Flush (length (flush c))) = (t ++ o, Some c')) by (rewrite run_app, E, R; reflexivity).
  destruct (quiet_polite t o) as [P' T']; [|exact P|exact T|]; [intros x X; destruct (H x X) as (r & z & -> & _); now exists r, z|].
  assert (CL : open c = false).
  { change (es ++ [Deliver; Close]) with (es ++ [Deliver] ++ [Close]) in E. rewrite app_assoc in E. destruct (run_last _ _ _ _ E) as [(t1 & c1 & o1 & E1 & S1 & ->)|[X _]]; [|discriminate].
    destruct (run_last _ _ _ _ E1) as [(t2 & c2 & o2 & E2 & S2 & ->)|[X _]]; [|discriminate]. apply deliver_idle in S2. cbn [step] in S1. rewrite S2 in S1.
    destruct (open c1) eqn:OP; [|injection S1 as _ <-; exact OP]. destruct (getAll _); [|discriminate]. injection S1 as _ <-. reflexivity. }
  destruct (run_polite _ _ _ Q P' T') as (c2 & E2 & N' & I' & J'). injection E2 as <-.
  exists (length (flush c)), o, c'. rewrite app_assoc. split; [exact Q|]. split; [|split; [|split]].
  - intros r S. destruct (sent_state _ _ _ I' S) as [K|(w & i & K)]; [exact K|]. destruct (pi_closed _ _ J') as [_ K2]; [congruence|]. apply K2 in K. rewrite F in K. destruct K.
  - intros r x D X. now destruct (reach_FO _ _ (run_reach _ _ _ Q) P' T' r x D X).
  - exact (ci_dones _ _ I').
  - clear - H. induction o as [|x o IH]; [reflexivity|]. destruct (H x (or_introl eq_refl)) as (r & z & -> & _). cbn. apply IH. intros y Y. apply H. now right.
Qed.
(** the outcome is IOError unless the connection was asked to stop *)
Theorem C41_loss_is_an_io_error : forall es t oc, run c_init es = (t, oc) -> ~ In Stop es -> forall r, ~ In (r, Shutdown) (dones t).
Proof.
  intros es t oc E S. assert (G : forall es c t oc, shut c = false -> ~ In Stop es -> run c es = (t, oc) -> forall r, ~ In (r, Shutdown) (dones t)).
  2:{ now apply (G es c_init t oc eq_refl S). }
  clear. induction es as [|e es IH]; intros c t oc SH NS E r Q; [injection E as <- <-; easy|]. cbn [run] in E.
  destruct (step c e) as [o c1] eqn:ST.
  assert (K : (forall r, ~ In (r, Shutdown) (dones o)) /\ forall c', c1 = Some c' -> shut c' = false).
  { clear IH E. destruct e as [|r'|id code body| |r' code| | |]; cbn [step] in ST;
    repeat match type of ST with
    | ((match ?x with _ => _ end) = _) => let Q := fresh "Q" in destruct x eqn:Q
    | (let _ := _ in _) = _ => cbv zeta in ST
    end; try (elim NS; now left); injection ST as <- <-;
    (split; [intros r1 H; cbn in H; rewrite ?SH in H; try (now destruct H); destruct H as [H|[]]; discriminate|intros c2 H; try discriminate; first [injection H as <-; exact SH | destruct (remove (hold c) id) as [[? ?]|]; [injection H as <-; exact SH|discriminate]]]). }
  destruct K as [K1 K2]. destruct c1 as [c1|]; [|injection E as <- <-; exact (K1 r Q)].
  destruct (run c1 es) as [o2 c2] eqn:R. injection E as <- <-. rewrite dones_app in Q. apply in_app_or in Q. destruct Q as [Q|Q]; [exact (K1 r Q)|].
  apply (IH c1 o2 c2 (K2 _ eq_refl)) in Q; [easy| |exact R]. intro H. apply NS. now right.
Qed.
(** False for other peers: one duplicated response, and the loss of the connection crashes the client; the
    same for one response to an id never used. *)
Theorem C41_duplicate_then_loss_refuted : exists es, fst (run c_init es) = [OWire 1 0%nat; OWire 2 1%nat; OWire 3 2%nat; OGot 1 0 []; ODone 0%nat (Answer 0 []); OGot 1 0 []] /\
  snd (run c_init (es ++ [Deliver; Close])) = None.
Proof. exists [Prefetch; Send 0%nat; Prefetch; Send 1%nat; Prefetch; Send 2%nat; Resp 1 0 []; Deliver; Resp 1 0 []]. split; vm_compute; reflexivity. Qed.

(** * C42 *)
(** any peer, fewer than 2^32 - 3 frames: a request in flight is one whose frame is unanswered, or the one
    whose response the read loop is holding *)
Definition fly_unanswered (c : conn) (t : list obs) : Prop :=
  forall r w i, rs c r = RFly w i -> (exists x, In x (unanswered t) /\ w_req x = r) \/ (exists code body, reader c = Some (Some r, code, body)).
Lemma small_cntr k : 0 <= k < 2 ^ 32 - 2 -> cntr k = k + 1.
Proof. intro H. unfold cntr. rewrite Z.div_small, Z.mod_small by lia. lia. Qed.
Lemma small_id k : 0 <= k < 2 ^ 32 - 2 -> nth_id k = k + 1.
Proof. intro H. unfold nth_id. rewrite Z.mod_small by lia. lia. Qed.
Lemma answer_other l i x : In x l -> w_id x <> i -> In x (answer l i).
Proof.
  induction l as [|y l IH]; [easy|]. intros [->|H] N; cbn [answer].
  - destruct (Z.eqb_spec (w_id x) i); [easy|now left].
  - destruct (w_id y =? i); [exact H|]. right. now apply IH.
Qed.
(** the slot found by an id that was sent *)
Lemma Resp_small c t id h' ir : CI c t -> nsent t < 2 ^ 32 - 3 -> 0 <= id < 2 ^ 32 -> remove (hold c) id = Some (h', ir) -> ir = own (slot_of (hold c) id).
Proof.
  intros I L Hid E. destruct (Resp_spec c t id I Hid h' ir E) as (n & N1 & N2 & N3 & _ & -> & _). f_equal. f_equal.
  assert (T : cc (nsent t + has (pre c)) < 2 ^ 32 - 1).
  { pose proof (nsent_nn t). assert (has (pre c) = 0 \/ has (pre c) = 1) as Hh by (destruct (pre c); cbn; auto). unfold cc. destruct (_ =? 0) eqn:Q; [lia|]. apply Z.eqb_neq in Q. rewrite small_cntr by lia. lia. }
  assert (n / 256 <= (2 ^ 32 - 2) / 256) by (etransitivity; [exact N2|apply Z.div_le_mono; lia]). change ((2 ^ 32 - 2) / 256) with 16777215 in H.
  pose proof (Z.div_mod n 256 ltac:(lia)). pose proof (Z.mod_pos_bound n 256 ltac:(lia)). rewrite Z.mod_small in N3 by lia. exact N3.
Qed.
Lemma FU_step c t e o c' : CI c t -> nsent t < 2 ^ 32 - 3 -> fly_unanswered c t -> step c e = (o, Some c') -> fly_unanswered c' (t ++ o).
Proof.
  intros I L F E. destruct e as [|r|id code body| |r code| | |].
  3:{ cbn [step] in E. destruct (reader c) as [x|] eqn:RD; [injection E as <- <-; now rewrite app_nil_r|].
    destruct (open c && (0 <=? id) && (id <? 2 ^ 32)) eqn:G; [|injection E as <- <-; now rewrite app_nil_r]. apply andb_true_iff in G. destruct G as [G G3]. apply andb_true_iff in G. destruct G as [G1 G2].
    apply Z.leb_le in G2. apply Z.ltb_lt in G3.
    destruct (remove (hold c) id) as [[h' ir]|] eqn:RM; [|discriminate]. injection E as <- <-. pose proof (Resp_small c t id h' ir I L (conj G2 G3) RM) as ->.
    intros r w i Q. cbn [rs reader] in *. destruct (F r w i Q) as [(x & X1 & X2)|(a & b & X1)]; [|congruence].
    rewrite unanswered_snoc. destruct (Z.eq_dec (w_id x) id) as [D|D]; [|left; exists x; split; [now apply answer_other|exact X2]]. right. exists code, body.
    destruct (un_fly c t x r w i I X1 X2 Q) as (_ & _ & O). destruct (un_wires t x X1) as [A _]. rewrite small_cntr in O by lia. rewrite (un_id c t x I X1), small_id in D by lia. now rewrite <- D, O. }
  - (* Prefetch *) cbn [step] in E. destruct (pre c); [injection E as <- <-; now rewrite app_nil_r|]. destruct (open c); [|injection E as <- <-; now rewrite app_nil_r].
    destruct (getNext _) as [[h s]|]; [|discriminate]. injection E as <- <-. rewrite app_nil_r. exact F.
  - (* Send *) cbn [step] in E. destruct (pre c) as [[w i]|]; [|injection E as <- <-; now rewrite app_nil_r]. destruct (rs c r) eqn:R; try (injection E as <- <-; now rewrite app_nil_r).
    destruct (open c); [|injection E as <- <-; now rewrite app_nil_r]. injection E as <- <-. intros r' w' i' Q. cbn [rs reader] in *. rewrite updr_get in Q. rewrite unanswered_snoc. destruct (Nat.eqb_spec r' r) as [->|].
    + left. eexists. split; [apply in_or_app; right; now left|reflexivity].
    + destruct (F _ _ _ Q) as [(x & X1 & X2)|H]; [left; exists x; split; [apply in_or_app; now left|exact X2]|now right].
  - (* Deliver *) cbn [step] in E. destruct (reader c) as [[[ir code] body]|] eqn:RD; [|injection E as <- <-; now rewrite app_nil_r].
    destruct ir as [r|]; [|injection E as <- <-; rewrite app_nil_r; intros r' w i Q; destruct (F _ _ _ Q) as [H|(a & b & H)]; [now left|congruence]]. cbn [rs] in E. destruct (rs c r) eqn:R; injection E as <- <-; rewrite ?app_nil_r.
    + intros r' w i Q. cbn [rs] in Q. destruct (F _ _ _ Q) as [H|(a & b & H)]; [now left|]. rewrite RD in H. injection H as <- _ _. congruence.
    + intros r' w i Q. cbn [complete rs] in Q. rewrite updr_get in Q. destruct (Nat.eqb_spec r' r); [discriminate|]. rewrite unanswered_quiet by exact Coq.Init.Logic.I.
      destruct (F _ _ _ Q) as [H|(a & b & H)]; [now left|]. rewrite RD in H. injection H as <- _ _. easy.
    + intros r' w i Q. cbn [rs] in Q. destruct (F _ _ _ Q) as [H|(a & b & H)]; [now left|]. rewrite RD in H. injection H as <- _ _. congruence.
  - (* Local *) cbn [step] in E. assert (K : forall x, fly_unanswered (complete c r x) (t ++ [ODone r x])).
    { intros x r' w i Q. cbn [complete rs reader] in *. rewrite updr_get in Q. destruct (Nat.eqb_spec r' r); [discriminate|]. rewrite unanswered_quiet by exact Coq.Init.Logic.I. now apply (F r' w i). }
    destruct (rs c r); injection E as <- <-; rewrite ?app_nil_r; try exact F; apply K.
  - (* Stop *) cbn [step] in E. injection E as <- <-. rewrite app_nil_r. exact F.
  - (* Close *) cbn [step] in E. destruct (reader c) as [x|] eqn:RD; [injection E as <- <-; now rewrite app_nil_r|]. destruct (open c); [|injection E as <- <-; now rewrite app_nil_r].
    destruct (getAll (hold c)); [|discriminate]. injection E as <- <-. intros r w i Q. rewrite unanswered_quiet by exact Coq.Init.Logic.I. cbn [rs reader] in *. rewrite <- RD. now apply (F r w i).
  - (* Flush *) cbn [step] in E. destruct (flush c) as [|[w i] l]; [injection E as <- <-; now rewrite app_nil_r|].
    assert (K : forall r x, fly_unanswered (complete (with_flush c l) r x) (t ++ [ODone r x])).
    { intros r x r' w' i' Q. cbn [complete rs reader with_flush] in *. rewrite updr_get in Q. destruct (Nat.eqb_spec r' r); [discriminate|]. rewrite unanswered_quiet by exact Coq.Init.Logic.I. now apply (F r' w' i'). }
    destruct (own _) as [r|]; [|injection E as <- <-; rewrite app_nil_r; exact F]. destruct (rs _ r); injection E as <- <-; rewrite ?app_nil_r; try exact F; apply K.
Qed.
Lemma nsent_le t o : nsent t <= nsent (t ++ o).
Proof. rewrite !nsent_wires, wires_app, app_length. lia. Qed.
Lemma reach_FU c t : reach c t -> never_next t -> nsent t < 2 ^ 32 - 3 -> fly_unanswered c t.
Proof.
  induction 1 as [|c t e o c' R IH E]; intros N L; [easy|]. pose proof (nsent_le t o). apply (FU_step c t e o c'); [apply CI_reach; [exact R|exact (never_next_pre _ _ N)]|lia| |exact E].
  apply IH; [exact (never_next_pre _ _ N)|lia].
Qed.
(** Any peer and any history of fewer than 2^32 - 3 frames in which no response carried the id of the frame
    to be sent next: a further response that answers nothing (its id was never sent, or has been answered)
    completes no request - if it does not crash the client. *)
Theorem C42_unsolicited_completes_nothing_partial : forall es t c, run c_init (es ++ [Deliver]) = (t, Some c) ->
  (forall p i code body q, t = p ++ OGot i code body :: q -> i <> nth_id (nsent p)) -> nsent t < 2 ^ 32 - 3 ->
  forall id code body, ~ In id (map w_id (unanswered t)) ->
  snd (run c_init (es ++ [Deliver; Resp id code body; Deliver])) <> None ->
  dones (fst (run c_init (es ++ [Deliver; Resp id code body; Deliver]))) = dones t.
Proof.
  intros es t c E N L id code body NU. change (es ++ [Deliver; Resp id code body; Deliver]) with (es ++ [Deliver] ++ [Resp id code body; Deliver]). rewrite app_assoc, run_app, E.
  pose proof (run_reach _ _ _ E) as R. pose proof (CI_reach _ _ R N) as I. pose proof (reach_FU _ _ R N L) as F.
  destruct (run_last _ _ _ _ E) as [(t1 & c1 & o1 & E1 & S & _)|[X _]]; [|discriminate]. pose proof (deliver_idle _ _ _ S) as D. clear t1 c1 o1 E1 S.
  cbn [run step]. rewrite D. destruct (open c && (0 <=? id) && (id <? 2 ^ 32)) eqn:G; [|rewrite D; intros _; cbn [fst]; now rewrite app_nil_r].
  apply andb_true_iff in G. destruct G as [G G3]. apply andb_true_iff in G. destruct G as [G1 G2]. apply Z.leb_le in G2. apply Z.ltb_lt in G3.
  destruct (remove (hold c) id) as [[h' ir]|] eqn:RM; [|intro K; now elim K]. cbn [reader rs]. pose proof (Resp_small c t id h' ir I L (conj G2 G3) RM) as ->.
  intros _. destruct (own (slot_of (hold c) id)) as [r|] eqn:O; [|cbn [fst]; rewrite dones_app; cbn; now rewrite app_nil_r].
  pose proof (ci_own _ _ I id r G2 O) as Q. exfalso. apply NU. destruct (F _ _ _ Q) as [(x & X1 & X2)|(a & b & X1)]; [|congruence].
  destruct (un_fly c t x r _ _ I X1 X2 Q) as (A & B & C). pose proof (pos_eq _ _ (eq_sym A) (eq_sym B)) as P. destruct (un_wires t x X1) as [W _].
  apply in_map_iff. exists x. split; [|exact X1]. rewrite (un_id c t x I X1), small_id by lia. rewrite small_cntr in P by lia. exact P.
Qed.
(** False of the code: one response with an id whose row does not exist crashes the client, and so does a
    duplicate once its row has been completely answered. *)
Theorem C42_unknown_id_refuted : exists t, run c_init [Prefetch; Send 0%nat; Resp 1000 0 []] = (t, None) /\ ~ In 1000 (map w_id (unanswered [OWire 1 0%nat])).
Proof. eexists. split; [vm_compute; reflexivity|]. intros [H|[]]. discriminate. Qed.
(** and a duplicate is counted as another answer: the client believes nothing is in flight *)
Theorem C42_duplicate_counted_refuted : exists c, snd (run c_init [Prefetch; Send 0%nat; Prefetch; Send 1%nat; Resp 1 0 []; Deliver; Resp 1 0 []; Deliver]) = Some c /\
  count (hold c) = 0 /\ rs c 1%nat = RFly 0 2.
Proof. eexists. split; [vm_compute; reflexivity|]. split; vm_compute; reflexivity. Qed.

(** * C43, C70 *)
Lemma run_count es t c : run c_init es = (t, Some c) -> polite t -> timely t ->
  count (hold c) = Z.of_nat (length (unanswered t)) + (match pre c with Some _ => 1 | None => 0 end).
Proof.
  intros E P T. destruct (run_polite _ _ _ E P T) as (c1 & Q & N & I & J). injection Q as <-. unfold count. rewrite (hp_cnt _ _ _ (pi_hp _ _ J)).
  unfold opens. rewrite app_length, map_length. destruct (pre c); cbn [length]; lia.
Qed.
(** The response to a request that was completed locally completes nothing, takes the frame out of the
    unanswered ones and frees its slot: the client's own count goes down by one. *)
Theorem C43_late_response_ignored : forall es t c, run c_init (es ++ [Deliver]) = (t, Some c) -> open c = true ->
  forall w code body, In w (unanswered t) -> (exists o, In (w_req w, o) (dones t)) ->
  forall t' oc, run c_init (es ++ [Deliver; Resp (w_id w) code body; Deliver]) = (t', oc) -> polite t' -> timely t' ->
  dones t' = dones t /\ t' = t ++ [OGot (w_id w) code body] /\
  Permutation (unanswered t) (w :: unanswered t') /\
  exists c', oc = Some c' /\ count (hold c') = count (hold c) - 1.
Proof.
  intros es t c E OP w code body HW [o HD] t' oc E'. change (es ++ [Deliver; Resp (w_id w) code body; Deliver]) with (es ++ [Deliver] ++ [Resp (w_id w) code body; Deliver]) in E'.
  rewrite app_assoc in E'. pose proof E' as E2. rewrite run_app, E in E2.
  assert (exists s, t' = t ++ s) as [s S]. { destruct (run c [_; _]) as [o' c'']. exists o'. now injection E2 as <- _. }
  intros P T. assert (P0 : polite t) by (rewrite S in P; exact (polite_pre _ _ P)). assert (T0 : timely t) by (rewrite S in T; exact (timely_pre _ _ T)).
  destruct (run_polite _ _ _ E P0 T0) as (c0 & Q & N & I & J). injection Q as <-.
  destruct (run_last _ _ _ _ E) as [(t1 & c1 & o1 & E1 & S1 & _)|[X _]]; [|discriminate]. pose proof (deliver_idle _ _ _ S1) as D. clear t1 c1 o1 E1 S1.
  assert (ID : 1 <= w_id w <= 2 ^ 32 - 2) by (rewrite (un_id c t w I HW); apply nth_id_rng).
  destruct (C39_in_flight_ids_different _ _ _ E P0 T0) as [ND _].
  assert (G : open c && (0 <=? w_id w) && (w_id w <? 2 ^ 32) = true) by (rewrite OP; apply andb_true_iff; split; [apply Z.leb_le|apply Z.ltb_lt]; lia).
  cbn [run step] in E2. rewrite D, G in E2.
  destruct (run_polite _ _ _ E' P T) as (c2 & EC & N' & I' & J'). subst oc.
  (* the slot the response frees *)
  assert (OW : forall h' ir, remove (hold c) (w_id w) = Some (h', ir) -> ir = None).
  { intros h' ir RM. destruct (answer_perm (unanswered t) (w_id w)) as (x & X1 & X2 & XP); [apply in_map_iff; now exists w|].
    assert (OP' : Permutation (opens c t) (cntr (w_nth x) :: map (fun w => cntr (w_nth w)) (answer (unanswered t) (w_id w)) ++ match pre c with Some _ => [cntr (nsent t)] | None => [] end)).
    { unfold opens. rewrite app_comm_cons. apply Permutation_app_tail. change (cntr (w_nth x) :: map (fun w => cntr (w_nth w)) (answer (unanswered t) (w_id w))) with (map (fun w => cntr (w_nth w)) (x :: answer (unanswered t) (w_id w))). now apply Permutation_map. }
    pose proof (W_opens c t T0) as HWo. assert (V : valid (top c t) \/ top c t = 0) by (apply cc_valid; pose proof (nsent_nn t); pose proof (has_nn (pre c)); lia).
    destruct (HP_remove (hold c) (top c t) _ (cntr (w_nth x)) (ci_U _ _ I) V (HP_perm _ _ _ _ (pi_hp _ _ J) OP')) as (h2 & ER & _).
    { intros n Q. apply HWo. exact (Permutation_in _ (Permutation_sym OP') Q). }
    assert (IDX : w_id w = cntr (w_nth x) mod 2 ^ 32) by (rewrite cntr_mod, <- (un_id c t x I X1); now symmetry). rewrite IDX, ER in RM. injection RM as _ <-.
    assert (w_req x = w_req w) as RX.
    { destruct (un_wires t x X1) as [A1 A2]. destruct (un_wires t w HW) as [B1 B2]. f_equal. apply (f_equal id). unfold id.
      clear - ND X1 HW X2. revert ND X1 HW X2. induction (unanswered t) as [|y l IH]; [easy|]. cbn [map]. intros ND X1 HW X2. inversion_clear ND as [|? ? N1 N2].
      destruct X1 as [->|X1], HW as [->|HW]; [reflexivity| | |now apply IH].
      - elim N1. rewrite X2. now apply in_map.
      - elim N1. rewrite <- X2. now apply in_map. }
    destruct (own (slot_of (hold c) (cntr (w_nth x)))) as [r|] eqn:O; [|reflexivity]. pose proof (pos_req c t x r I X1 O) as <-.
    exfalso. destruct (un_wires t x X1) as [A1 A2]. pose proof (cntr_pos (w_nth x) ltac:(lia)) as CP. pose proof (ci_own _ _ I _ _ (Z.lt_le_incl _ _ CP) O) as F.
    apply (ci_done _ _ I) in HD. congruence. }
  destruct (remove (hold c) (w_id w)) as [[h' ir]|] eqn:RM; [|discriminate]. pose proof (OW _ _ eq_refl) as ->. cbn [reader hold pre rs shut open flush] in E2. cbn [app] in E2. injection E2 as E2 Ec.
  assert (UN : Permutation (unanswered t) (w :: unanswered t')).
  { rewrite <- E2, unanswered_snoc. destruct (answer_perm (unanswered t) (w_id w)) as (x & X1 & X2 & XP); [apply in_map_iff; now exists w|].
    assert (x = w) as ->; [|exact XP]. clear - ND X1 HW X2. revert ND X1 HW X2. induction (unanswered t) as [|y l IH]; [easy|]. cbn [map]. intros ND X1 HW X2. inversion_clear ND as [|? ? N1 N2].
      destruct X1 as [->|X1], HW as [->|HW]; [reflexivity| | |now apply IH].
      - elim N1. rewrite X2. now apply in_map.
      - elim N1. rewrite <- X2. now apply in_map. }
  split; [rewrite <- E2, dones_app; apply app_nil_r|]. split; [now symmetry|]. split; [exact UN|]. exists c2. split; [reflexivity|].
  rewrite (run_count _ _ _ E' P T), (run_count _ _ _ E P0 T0). apply Permutation_length in UN. cbn [length] in UN. subst c2. cbn [pre]. lia.
Qed.
(** The number by which a stopped connection decides that nothing is in flight any more: it is the number of
    unanswered frames, plus one if an id has been taken and not used. *)
Theorem C70_count_is_the_unanswered_partial : forall es t c, run c_init es = (t, Some c) -> polite t -> timely t ->
  count (hold c) = Z.of_nat (length (unanswered t)) + (match pre c with Some _ => 1 | None => 0 end).
Proof. exact run_count. Qed.
(** False of the code: the request for which the id was taken completes before it is sent, the connection is
    stopped; every frame sent is answered, and the count is 1 for ever - no further event of the connection
    changes it, except the peer's closing. *)
Theorem C70_graceful_stop_refuted : exists es t c, run c_init es = (t, Some c) /\ polite t /\ timely t /\ unanswered t = [] /\ shut c = true /\ count (hold c) = 1.
Proof.
  exists [Prefetch; Local 0%nat 8; Stop]. exists [ODone 0%nat (Elsewhere 8)]. eexists. split; [vm_compute; reflexivity|].
  split; [intros p i code body q E; destruct p as [|x [|? ?]]; discriminate|]. split; [intros p i r q E; destruct p as [|x [|? ?]]; discriminate|].
  split; [reflexivity|]. split; vm_compute; reflexivity.
Qed.

(** * Non-trivial cases *)
Definition ex_history : list ev :=
  [Prefetch; Send 0%nat; Prefetch; Send 1%nat; Prefetch; Send 2%nat; Prefetch; Resp 2 0 [7]; Deliver; Local 2%nat 8; Resp 1 5 [8; 9]; Deliver; Send 3%nat].
Definition ex_trace : list obs :=
  [OWire 1 0%nat; OWire 2 1%nat; OWire 3 2%nat; OGot 2 0 [7]; ODone 1%nat (Answer 0 [7]); ODone 2%nat (Elsewhere 8); OGot 1 5 [8; 9]; ODone 0%nat (Answer 5 [8; 9]); OWire 4 3%nat].
Example ex_run : fst (run c_init ex_history) = ex_trace.
Proof. vm_compute. reflexivity. Qed.
(** the checks below decide [polite], [timely] and [never_next] of a given trace *)
Fixpoint politeb (s : list waiting * Z) (t : list obs) : bool :=
  match t with
  | [] => true
  | o :: t => match o with
              | OGot i _ _ => existsb (fun w => w_id w =? i) (fst s) && negb (i =? nth_id (snd s))
              | OWire _ _ => forallb (fun w => snd s - w_nth w <? 2 ^ 31 - 2 ^ 10) (fst s)
              | _ => true end && politeb (track s o) t
  end.
Lemma politeb_ok t : forall p0, politeb (tracked p0) t = true -> forall p o q, t = p ++ o :: q ->
  match o with
  | OGot i _ _ => In i (map w_id (unanswered (p0 ++ p))) /\ i <> nth_id (nsent (p0 ++ p))
  | OWire _ _ => Forall (fun w => nsent (p0 ++ p) - w_nth w < 2 ^ 31 - 2 ^ 10) (unanswered (p0 ++ p))
  | _ => True end.
Proof.
  induction t as [|x t IH]; intros p0 H p o q E; [now destruct p|]. cbn [politeb] in H. apply andb_true_iff in H. destruct H as [H1 H2]. destruct p as [|y p].
  - injection E as -> <-. rewrite app_nil_r. destruct o as [i r|i code body| |]; try exact Coq.Init.Logic.I.
    + rewrite forallb_forall in H1. apply Forall_forall. intros w Q. apply H1 in Q. now apply Z.ltb_lt.
    + apply andb_true_iff in H1. destruct H1 as [H1 H3]. split.
      * apply existsb_exists in H1. destruct H1 as (w & W1 & W2). apply in_map_iff. exists w. split; [now apply Z.eqb_eq|exact W1].
      * apply negb_true_iff, Z.eqb_neq in H3. exact H3.
  - injection E as -> E. replace (track (tracked p0) y) with (tracked (p0 ++ [y])) in H2 by (unfold tracked; rewrite fold_left_app; reflexivity).
    specialize (IH _ H2 p o q E). rewrite <- app_assoc in IH. exact IH.
Qed.
Lemma politeb_all t : politeb ([], 0) t = true -> polite t /\ timely t /\ never_next t.
Proof.
  intro H. pose proof (politeb_ok t [] H) as K. split; [|split].
  - intros p i code body q E. exact (proj1 (K _ _ _ E)).
  - intros p i r q E. exact (K _ _ _ E).
  - intros p i code body q E. exact (proj2 (K _ _ _ E)).
Qed.
(** ids 1, 2, 3, 4 with the second answered first; the hypotheses of C39 and C40 hold *)
Example ex_polite : polite ex_trace /\ timely ex_trace /\ never_next ex_trace.
Proof. apply politeb_all. vm_compute. reflexivity. Qed.
Example C40_ex : fst (run c_init (ex_history ++ [Deliver])) = ex_trace /\ map w_req (unanswered ex_trace) = [2%nat; 3%nat].
Proof. split; vm_compute; reflexivity. Qed.
(** loss: request 2 was completed locally, request 3 is the only one failed by the connection *)
Example C41_ex : fst (run c_init (ex_history ++ [Deliver; Close] ++ repeat Flush 2)) = ex_trace ++ [OClosed; ODone 3%nat IOError] /\
  polite (ex_trace ++ [OClosed]) /\ timely (ex_trace ++ [OClosed]) /\ ~ In Stop ex_history.
Proof. split; [vm_compute; reflexivity|]. destruct (politeb_all (ex_trace ++ [OClosed])) as (A & B & _); [vm_compute; reflexivity|]. split; [exact A|split; [exact B|]]. cbn. intros H. repeat (destruct H as [H|H]; [discriminate|]). exact H. Qed.
(** id 2 has been answered: a duplicate meets the hypotheses of C42 and does not crash here *)
Example C42_ex : ~ In 2 (map w_id (unanswered ex_trace)) /\ nsent ex_trace < 2 ^ 32 - 3 /\ snd (run c_init (ex_history ++ [Deliver; Resp 2 0 []; Deliver])) <> None.
Proof. split; [vm_compute; intros [H|[H|[]]]; discriminate|]. split; vm_compute; [reflexivity|discriminate]. Qed.
(** the late answer to request 2, completed locally *)
Example C43_ex : In (mkWait 3 2%nat 2) (unanswered ex_trace) /\ In (2%nat, Elsewhere 8) (dones ex_trace) /\
  fst (run c_init (ex_history ++ [Deliver; Resp 3 0 [1]; Deliver])) = ex_trace ++ [OGot 3 0 [1]] /\ polite (ex_trace ++ [OGot 3 0 [1]]) /\ timely (ex_trace ++ [OGot 3 0 [1]]).
Proof. destruct (politeb_all (ex_trace ++ [OGot 3 0 [1]])) as (A & B & _); [vm_compute; reflexivity|]. split; [vm_compute; now left|]. split; [vm_compute; right; now left|]. split; [vm_compute; reflexivity|]. now split. Qed.

(** beyond the cycle: if nothing is answered, frame 2^32 - 2 carries the same id as frame 0; this is what [timely] excludes *)
Fixpoint sends (n : nat) : list ev := match n with O => [] | Datatypes.S n => sends n ++ [Prefetch; Send n] end.
Lemma sends_run n : exists c t, run c_init (sends n) = (t, Some c) /\ pre c = None /\ open c = true /\ length (wires t) = n /\ map snd (wires t) = seq 0 n /\
  (forall i b d, ~ In (OGot i b d) t) /\ (forall r, (n <= r)%nat -> rs c r = RNew).
Proof.
  induction n as [|n (c & t & E & P & O & L & M & G & R)]; [exists c_init, []; repeat split; easy|]. cbn [sends]. rewrite run_app, E. cbn [run step]. rewrite P, O.
  assert (N : never_next t) by (intros p i code body q Q; elim (G i code body); rewrite Q; apply in_or_app; right; now left).
  pose proof (CI_reach _ _ (run_reach _ _ _ E) N) as I. pose proof (ci_U _ _ I) as HU. rewrite P in HU. cbn [has] in HU. rewrite Z.add_0_r in HU.
  destruct (getNext_ok _ _ HU (cc_valid _ (nsent_nn t))) as (h' & -> & _). cbn [pre rs open]. rewrite (R n) by lia. eexists. eexists. split; [reflexivity|]. cbn [pre open rs]. cbn [app].
  split; [reflexivity|]. split; [first [exact O|reflexivity]|]. rewrite wires_app, app_length, map_app, M, L. cbn [wires flat_map app map snd length]. split; [lia|]. split; [now rewrite seq_S|].
  split; [intros i b d Q; apply in_app_or in Q; destruct Q as [Q|[Q|[]]]; [exact (G _ _ _ Q)|discriminate]|]. intros r Hr. rewrite updr_get. destruct (Nat.eqb_spec r n); [lia|]. apply R. lia.
Qed.
Theorem C39_wraparound_without_answers_refuted : exists es t c, run c_init es = (t, Some c) /\ (forall i b d, ~ In (OGot i b d) t) /\
  exists k k', k <> k' /\ map fst (map (fun k => nth k (wires t) (0, 0%nat)) [k; k']) = [1; 1] /\ (k < length (wires t))%nat /\ (k' < length (wires t))%nat.
Proof.
  destruct (sends_run (Z.to_nat (2 ^ 32 - 1))) as (c & t & E & _ & _ & L & _ & G & _). exists (sends (Z.to_nat (2 ^ 32 - 1))), t, c. split; [exact E|]. split; [exact G|].
  exists 0%nat, (Z.to_nat (2 ^ 32 - 2)). assert (B : (Z.to_nat (2 ^ 32 - 2) < length (wires t))%nat) by (rewrite L; apply Z2Nat.inj_lt; lia).
  assert (N : never_next t) by (intros p i code body q Q; elim (G i code body); rewrite Q; apply in_or_app; right; now left).
  assert (K : forall k, (k < length (wires t))%nat -> fst (nth k (wires t) (0, 0%nat)) = nth_id (Z.of_nat k)).
  { intros k Hk. destruct (nth k (wires t) (0, 0%nat)) as [i r] eqn:Q. cbn [fst]. apply (run_ids _ _ _ E N k i r). rewrite <- Q. now apply nth_error_nth'. }
  split; [intro Q; apply (f_equal Z.of_nat) in Q; rewrite Z2Nat.id in Q; lia|]. split; [|split; [lia|exact B]]. cbn [map]. rewrite !K by (exact B || lia). rewrite Z2Nat.id by lia. reflexivity.
Qed.

Print Assumptions C39_ids_follow_the_cycle_partial.
Print Assumptions C39_ids_pairwise_different_partial.
Print Assumptions C39_in_flight_ids_different.
Print Assumptions C39_hostile_peer_refuted.
Print Assumptions C39_wraparound_without_answers_refuted.
Print Assumptions C40_answers_go_to_their_request.
Print Assumptions C40_every_answered_request_completes.
Print Assumptions C41_loss_fails_the_unanswered_partial.
Print Assumptions C41_loss_is_an_io_error.
Print Assumptions C41_duplicate_then_loss_refuted.
Print Assumptions C42_unsolicited_completes_nothing_partial.
Print Assumptions C42_unknown_id_refuted.
Print Assumptions C42_duplicate_counted_refuted.
Print Assumptions C43_late_response_ignored.
Print Assumptions C70_count_is_the_unanswered_partial.
Print Assumptions C70_graceful_stop_refuted.
