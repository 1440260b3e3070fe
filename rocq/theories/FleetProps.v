(** C146: a client endpoint with its connections and requests. *)
From Coq Require Import ZArith List Bool Arith Lia.
Import ListNotations.
From Verif Require ClientModel ClientSpec ClientProofs ClientProps HolderModel HolderSpec HolderProofs HolderPolite HolderProps.
From Verif Require Import FleetModel FleetSpec FleetClient FleetHolder FleetProofs FleetInv.

(** * A panic comes from a table *)
Lemma bind_none r f o : bind r f = (o, None) -> r = (o, None) \/ exists o1 s1 o2, r = (o1, Some s1) /\ f s1 = (o2, None) /\ o = o1 ++ o2.
Proof. destruct r as [o1 [s1|]]; cbn [bind]; [|intro X; injection X as <-; auto]. destruct (f s1) as [o2 s2] eqn:E. intro X. injection X as <- ->. right. now exists o1, s1, o2. Qed.
Lemma on_none s i e o : on s i e = (o, None) -> exists o1, o = map (seen i) o1 /\ HolderModel.step (tab s i) e = (o1, None).
Proof. unfold on. destruct (HolderModel.step (tab s i) e) as [o1 [c|]]; intro X; [discriminate|]. injection X as <-. now exists o1. Qed.
Lemma turn_none s e o : turn s e <> (o, None).
Proof. unfold turn. destruct (ClientModel.step _ _). discriminate. Qed.
Definition from_table (n : Z) (t : list obs) : Prop := exists t1 s1 i e o1, PI n t1 s1 /\ HolderModel.step (tab s1 i) e = (o1, None) /\ t = t1 ++ map (seen i) o1.
Lemma step_crash n t s e o : INV n t s -> step s e = (o, None) -> from_table n (t ++ o).
Proof.
  intros I E. pose proof I as (P & O & H).
  assert (ON : forall i e, on s i e = (o, None) -> from_table n (t ++ o)) by (intros i e' X; apply on_none in X as (o1 & -> & X); now exists t, s, i, e', o1).
  assert (TN : forall s e, turn s e = (o, None) -> from_table n (t ++ o)) by (intros s0 e0 X; elim (turn_none _ _ _ X)).
  assert (SK : skip s = (o, None) -> from_table n (t ++ o)) by discriminate.
  assert (BD : forall i e1 f, (forall s1 o1, f s1 <> (o1, None)) -> bind (on s i e1) f = (o, None) -> from_table n (t ++ o)).
  { intros i e1 f F X. apply bind_none in X as [X|(o1 & s1 & o2 & _ & X & _)]; [eauto|elim (F _ _ X)]. }
  destruct e; cbn [step] in E.
  - destruct (_ || _); [auto|discriminate].
  - destruct (fin s r); [auto|discriminate].
  - destruct (ClientModel.cw _); auto; destruct (queue s); eauto.
  - destruct (ClientModel.cw _); eauto.
  - destruct (hand s i); eauto.
  - destruct (ClientModel.cw _); auto. destruct (hand s i); eauto. destruct (HolderModel.pre _); auto. eapply BD; [|exact E]. intros. apply turn_none.
  - destruct (ClientModel.cr _); eauto.
  - eauto.
  - eauto.
  - apply bind_none in E as [E|(o1 & s1 & o2 & _ & E & _)]; [eauto|]. destruct (says_all _); discriminate.
  - destruct e; cbn [shared] in E; eauto.
    + destruct (ClientModel.cw _); eauto. destruct (ClientModel.stopped _); eauto. eapply BD; [|exact E]. intros. apply turn_none.
    + destruct (ClientModel.cw _); eauto.
    + destruct (ClientModel.sp _); auto. destruct (ClientModel.cw _); auto. destruct (_ =? _)%nat; auto. eapply BD; [|exact E]. intros. apply turn_none.
    + destruct (HolderModel.reader _); eauto.
    + destruct (ClientModel.ck _); eauto. apply bind_none in E as [E|(o1 & s1 & o2 & E1 & E2 & ->)]; [eauto|]. apply on_none in E2 as (o3 & -> & E2). rewrite app_assoc.
      exists (t ++ o1), s1, i, HolderModel.Close, o3. split; [|auto]. eapply turn_PI; [exact P| |exact E1]. discriminate.
Qed.
Lemma run_crash n : forall es t s o, INV n t s -> run s es = (o, None) -> from_table n (t ++ o).
Proof.
  induction es as [|e es IH]; intros t s o I E; cbn [run] in E; [discriminate|].
  apply bind_none in E as [E|(o1 & s1 & o2 & E1 & E2 & ->)]; [eapply step_crash; eauto|]. rewrite app_assoc. eapply IH; [|exact E2]. eapply step_INV; eauto.
Qed.
Lemma start_crash n es t : start n es = (t, None) -> from_table n t.
Proof.
  unfold start. pose proof (INV_init n) as I. destruct (f_init n) as [o0 s0]. cbn [fst snd] in I. intro E. apply bind_none in E as [E|(o1 & s1 & o2 & E1 & E2 & ->)]; [discriminate|]. injection E1 as <- <-. eapply run_crash; eauto.
Qed.
(** in every case: the run up to the last whole step *)
Lemma start_PI n es t os : start n es = (t, os) -> exists t1 s1 i o1, PI n t1 s1 /\ t = t1 ++ map (seen i) o1 /\ HolderSpec.dones o1 = [] /\ HolderSpec.wires o1 = [] /\
  match os with Some s => s1 = s /\ o1 = [] | None => exists e, HolderModel.step (tab s1 i) e = (o1, None) end.
Proof.
  intro E. destruct os as [s|].
  - apply start_INV in E as (P & _). exists t, s, 0%nat, []. cbn [map]. rewrite app_nil_r. split; [exact P|]. now repeat split.
  - apply start_crash in E as (t1 & s1 & i & e & o1 & P & S & ->). exists t1, s1, i, o1. destruct (tab_crash _ _ _ S) as (A & B & _). split; [exact P|]. repeat split; auto. now exists e.
Qed.

(** * At most once *)
(** Whatever users, peers, the network and timers do: each request is completed at most once, by whoever it is, and written
    to at most one connection, at most once. *)
Theorem C146_completed_at_most_once : forall n es t os, start n es = (t, os) -> NoDup (map fst (completions t)).
Proof. intros n es t os E. apply start_PI in E as (t1 & s1 & i & o1 & P & -> & D & _). rewrite app_completions, seen_completions, D, app_nil_r. apply (v_L _ _ _ P). Qed.
Theorem C146_written_at_most_once : forall n es t os, start n es = (t, os) -> NoDup (written t).
Proof. intros n es t os E. apply start_PI in E as (t1 & s1 & i & o1 & P & -> & _ & D & _). rewrite app_written, seen_written, D. cbn [map]. rewrite app_nil_r. apply (v_L _ _ _ P). Qed.
Print Assumptions C146_completed_at_most_once.
Print Assumptions C146_written_at_most_once.

(** * The parts behave as they do alone *)
(** The endpoint: what is observed of it is observed of an endpoint alone (ClientModel.v), so that the theorems about that
    one (C76-C84 and others) hold here too. *)
Theorem C146_endpoint : forall n es t os, start n es = (t, os) -> exists es' s', ClientModel.start n es' = (of_endpoint t, s').
Proof.
  intros n es t os E. apply start_PI in E as (t1 & s1 & i & o1 & P & -> & _). rewrite app_ep, seen_ep, app_nil_r. destruct (v_ep _ _ _ P) as [es' X]. now exists es', (ep s1).
Qed.
Lemma reach_run c t : HolderProofs.reach c t -> exists es, HolderModel.run HolderModel.c_init es = (t, Some c).
Proof.
  induction 1 as [|c t e o c' R [es IH] S]; [now exists []|]. exists (es ++ [e]). rewrite HolderProps.run_app, IH. cbn [HolderModel.run]. rewrite S. now rewrite app_nil_r.
Qed.
(** Each connection: what is observed at it is observed at a connection alone (HolderModel.v), so that C39-C43 hold here. *)
Theorem C146_connection : forall n es t os, start n es = (t, os) -> forall i, exists es' oc, HolderModel.run HolderModel.c_init es' = (at_conn i t, oc) /\ (os <> None -> oc <> None).
Proof.
  intros n es t os E i. apply start_PI in E as (t1 & s1 & k & o1 & P & -> & _ & _ & X). destruct (reach_run _ _ (v_tab _ _ _ P i)) as [es' R]. rewrite app_at, seen_at.
  destruct (Nat.eqb_spec k i) as [->|N]; [|rewrite app_nil_r; exists es', (Some (tab s1 i)); now split].
  destruct os as [s|]; [destruct X as [-> ->]; rewrite app_nil_r; exists es', (Some (tab s i)); now split|]. destruct X as [e X].
  exists (es' ++ [e]), None. rewrite HolderProps.run_app, R. cbn [HolderModel.run]. rewrite X. now split.
Qed.
Print Assumptions C146_endpoint.
Print Assumptions C146_connection.

(** * Answers *)
Lemma in_at_done i t r x : In (FDone (ByConn i) r x) t -> In (HolderModel.ODone r x) (at_conn i t).
Proof. intro X. apply in_flat_map. eexists. split; [exact X|]. cbn. rewrite Nat.eqb_refl. now left. Qed.
Lemma at_got i t id code body : In (HolderModel.OGot id code body) (at_conn i t) -> In (FGot i id code body) t.
Proof.
  intro X. apply in_flat_map in X as (y & Y & X). destruct y as [| | |[] ? ?| |]; cbn in X; try match type of X with In _ (if (?a =? ?b)%nat then _ else _) => destruct (Nat.eqb_spec a b) as [->|] end; cbn in X; try contradiction; destruct X as [X|X]; try contradiction; try discriminate X. injection X as -> -> ->. exact Y.
Qed.
Lemma at_wire i t id r : In (id, r) (HolderSpec.wires (at_conn i t)) -> In (FWire i id r) t.
Proof.
  intro X. unfold HolderSpec.wires in X. apply in_flat_map in X as (z & Z & X). destruct z; cbn in X; try contradiction; destruct X as [X|X]; try contradiction. injection X as -> ->.
  apply in_flat_map in Z as (y & Y & Z). destruct y as [| | |[] ? ?| |]; cbn in Z; try match type of Z with In _ (if (?a =? ?b)%nat then _ else _) => destruct (Nat.eqb_spec a b) as [->|] end; cbn in Z; try contradiction; destruct Z as [Z|Z]; try contradiction; try discriminate Z. injection Z as -> ->. exact Y.
Qed.
(** A request which a connection completes with an answer was written on that connection, and the answer is a response that
    arrived on it with the id under which it was written. *)
Theorem C146_answers_go_to_their_request : forall n es t os, start n es = (t, os) -> never_ahead t ->
  forall i r code body, In (FDone (ByConn i) r (HolderModel.Answer code body)) t -> exists id, In (FWire i id r) t /\ In (FGot i id code body) t.
Proof.
  intros n es t os E N i r code body D. destruct (C146_connection _ _ _ _ E i) as (es' & oc & R & _). destruct (HolderProps.C40_answers_go_to_their_request _ _ _ R (N i)) as [A _].
  apply in_at_done in D. apply in_split in D as (p & q & Q). destruct (A _ _ _ _ _ Q) as (id & p1 & p2 & -> & _ & W). exists id. split.
  - apply at_wire. rewrite Q, <- app_assoc. rewrite HolderProofs.wires_app. apply in_app_iff. now left.
  - apply at_got. rewrite Q, <- app_assoc. apply in_app_iff. right. now left.
Qed.
Print Assumptions C146_answers_go_to_their_request.

(** * Peers that behave *)
(** no panic *)
Theorem C146_no_panic_partial : forall n es t os, start n es = (t, os) -> good_peers t -> os <> None.
Proof.
  intros n es t os E G ->. apply start_crash in E as (t1 & s1 & i & e & o1 & P & S & ->). destruct (G i) as [G1 G2]. rewrite app_at, seen_at, Nat.eqb_refl in G1, G2.
  destruct (reach_run _ _ (v_tab _ _ _ P i)) as [es' R].
  assert (X : HolderModel.run HolderModel.c_init (es' ++ [e]) = (at_conn i t1 ++ o1, None)) by (rewrite HolderProps.run_app, R; cbn [HolderModel.run]; now rewrite S).
  destruct (HolderProps.run_polite _ _ _ X G1 G2) as (c & Q & _). discriminate.
Qed.
Print Assumptions C146_no_panic_partial.
(** what a connection fails when it ends was written on it and never answered *)
Theorem C146_failed_only_the_unanswered_partial : forall n es t os, start n es = (t, os) -> good_peers t ->
  forall i r x, In (FDone (ByConn i) r x) t -> x = HolderModel.IOError \/ x = HolderModel.Shutdown -> In r (map HolderSpec.w_req (HolderSpec.unanswered (at_conn i t))).
Proof.
  intros n es t os E G i r x D X. pose proof (C146_no_panic_partial _ _ _ _ E G) as N. destruct os as [s|]; [|congruence]. apply start_INV in E as (P & _). destruct (G i) as [G1 G2].
  destruct (HolderProps.reach_FO _ _ (v_tab _ _ _ P i) G1 G2 r x) as [_ Q]; [|exact X|exact Q]. apply in_at_done in D. apply in_flat_map. eexists. split; [exact D|]. now left.
Qed.
Print Assumptions C146_failed_only_the_unanswered_partial.

(** * Nothing is lost *)
(** Every request handed over is complete, or waits in the queue, or is with a write loop which is about to write it, or has been
    written on a connection. *)
Theorem C146_nothing_is_lost : forall n es t s, start n es = (t, Some s) -> forall r, In (FSent r) t ->
  In r (map fst (completions t)) \/ In r (queue s) \/
  (exists i, hand s i = Some r /\ ClientModel.cw (ClientModel.cn (ep s) i) = ClientModel.WReq) \/ In r (written t).
Proof.
  intros n es t s E r S. apply start_INV in E as (P & O & H). pose proof (v_L _ _ _ P) as I. apply (l_sent _ _ I) in S. destruct (l_loc _ _ I r S) as [X|[X|[[i X]|(i & w & j & X)]]].
  - left. now apply (l_fin _ _ I).
  - auto.
  - right. right. left. exists i. split; [exact X|exact (H _ _ X)].
  - right. right. right. apply (l_wo _ _ I) in X. apply in_flat_map in X as (y & Y & X). destruct y; cbn in X; try contradiction. destruct (_ =? _)%nat; [|contradiction].
    destruct X as [<-|[]]. apply in_flat_map. eexists. split; [exact Y|]. now left.
Qed.
Print Assumptions C146_nothing_is_lost.
Lemma open_closed c t : HolderProofs.reach c t -> HolderModel.open c = true -> ~ In HolderModel.OClosed t.
Proof.
  induction 1 as [|c t e o c' R IH E]; intro O; [easy|]. destruct (tab_loops _ _ _ _ E) as (A & _). specialize (IH (A O)). rewrite in_app_iff. intros [X|X]; [auto|].
  destruct e as [|r|id code body| |r code| | |]; cbn [HolderModel.step] in E;
  repeat match type of E with
  | ((match ?x with _ => _ end) = _) => destruct x
  | ((_, match ?x with _ => _ end) = _) => destruct x
  end; try discriminate; injection E as <- <-; cbn in X; try tauto; destruct X as [X|X]; try discriminate; try contradiction.
Qed.
(** With peers that behave: a request that was written and is not complete was written on a connection which has not begun to
    fail its requests, or is at it. *)
Theorem C146_written_requests_partial : forall n es t s, start n es = (t, Some s) -> good_peers t -> forall i r, In r (written_on i t) ->
  In r (map fst (completions t)) \/ ~ In (FClosed i) t \/ HolderModel.flush (tab s i) <> [].
Proof.
  intros n es t s E G i r W. apply start_INV in E as (P & O & H). pose proof (v_L _ _ _ P) as I. destruct (G i) as [G1 G2].
  destruct (HolderProps.reach_polite _ _ (v_tab _ _ _ P i) G1 G2) as (_ & CI & PI). pose proof (l_won _ _ I _ _ W) as N.
  destruct (HolderModel.rs (tab s i) r) as [|w j|x] eqn:R; [congruence| |left; apply (l_fin _ _ I); eapply (l_done _ _ I); eauto]. right.
  destruct (HolderModel.open (tab s i)) eqn:OP; [left|right].
  - intro X. apply (open_closed _ _ (v_tab _ _ _ P i) OP). apply in_flat_map. eexists. split; [exact X|]. cbn. rewrite Nat.eqb_refl. now left.
  - destruct (HolderPolite.pi_closed _ _ PI OP) as [_ F]. apply F in R. intro X. rewrite X in R. destruct R.
Qed.
Print Assumptions C146_written_requests_partial.

(** * A connection that ends *)
Definition still (o : list HolderModel.obs) : Prop := forall x, In x o -> match x with HolderModel.OWire _ _ | HolderModel.OGot _ _ _ => False | _ => True end.
Lemma still_polite t o : still o -> HolderSpec.polite t -> HolderSpec.timely t -> HolderSpec.polite (t ++ o) /\ HolderSpec.timely (t ++ o).
Proof.
  revert t. induction o as [|x o IH]; intros t H P T; [now rewrite app_nil_r|]. change (t ++ x :: o) with (t ++ [x] ++ o). rewrite app_assoc.
  pose proof (H x (or_introl eq_refl)) as HX. apply IH; [intros y Q; apply H; now right| |].
  - intros p i code body q E. destruct q as [|y q] using rev_ind; [apply app_inj_tail in E as [_ ->]; contradiction|]. clear IHq. rewrite app_comm_cons, app_assoc in E. apply app_inj_tail in E. destruct E as [-> _]. now apply (P p i code body q).
  - intros p i rr q E. destruct q as [|y q] using rev_ind; [apply app_inj_tail in E as [_ ->]; contradiction|]. clear IHq. rewrite app_comm_cons, app_assoc in E. apply app_inj_tail in E. destruct E as [-> _]. now apply (T p i rr q).
Qed.
Lemma run_flushes i : forall k s, exists o s', run s (repeat (Flush i) k) = (o, Some s') /\ HolderModel.flush (tab s' i) = skipn k (HolderModel.flush (tab s i)) /\
  HolderModel.open (tab s' i) = HolderModel.open (tab s i) /\ still (at_conn i o).
Proof.
  induction k as [|k IH]; intro s; [exists [], s; cbn; repeat split; now intros x []|]. cbn [repeat run step]. unfold on.
  destruct (HolderProps.flush_step (tab s i)) as (o & c' & -> & F & O & Q). set (s1 := w_tab _ _ _). destruct (IH s1) as (o2 & s2 & R & F2 & O2 & Q2). cbn [bind]. rewrite R.
  exists (map (seen i) o ++ o2), s2. split; [reflexivity|]. assert (TB : tab s1 i = c') by (unfold s1; cbn; now rewrite Nat.eqb_refl). rewrite TB in *. rewrite F2, F, O2, O.
  split; [destruct (HolderModel.flush (tab s i)); [now rewrite skipn_nil|reflexivity]|]. split; [reflexivity|]. rewrite app_at, seen_at, Nat.eqb_refl. intros x X. apply in_app_iff in X as [X|X]; [|exact (Q2 x X)].
  destruct (Q x X) as (r & z & -> & _). exact Logic.I.
Qed.
Lemma flush_completes n t s i : INV n t s -> HolderSpec.polite (at_conn i t) -> HolderSpec.timely (at_conn i t) -> ClientModel.ck (ClientModel.cn (ep s) i) = ClientModel.KFlush ->
  exists k o s', run s (Ep (ClientModel.K i) :: repeat (Flush i) k) = (o, Some s') /\ forall r, In r (written_on i (t ++ o)) -> In r (map fst (completions (t ++ o))).
Proof.
  intros I G1 G2 K.
  destruct (step s (Ep (ClientModel.K i))) as [o1 os1] eqn:S1.
  assert (SH : of_endpoint o1 = [ClientModel.OFlush i] /\ still (at_conn i o1)).
  { cbn [step shared] in S1. rewrite K in S1. unfold turn, on in S1. cbn [ClientModel.step] in S1. unfold ClientModel.step_k in S1. rewrite K in S1. cbn [map bind tab w_ep] in S1.
    destruct (HolderModel.step (tab s i) HolderModel.Close) as [o2 oc] eqn:C.
    assert (ST : still o2). { intros x X. cbn [HolderModel.step] in C. destruct (HolderModel.reader _); [|destruct (HolderModel.open _); [destruct (HolderModel.getAll _)|]]; injection C as <- _; cbn in X; try contradiction. destruct X as [<-|[]]. exact Logic.I. }
    destruct oc; injection S1 as <- _; (split; [cbn; fold (of_endpoint (map (seen i) o2)); now rewrite seen_ep|cbn; fold (at_conn i (map (seen i) o2)); now rewrite seen_at, Nat.eqb_refl]). }
  destruct SH as [_ ST]. destruct (still_polite _ _ ST G1 G2) as [P1 T1].
  assert (X : exists s1, os1 = Some s1).
  { destruct os1 as [s1|]; [now exists s1|]. exfalso. destruct (step_crash _ _ _ _ _ I S1) as (t1 & s1 & j & e & o2 & P & S & Q).
    pose proof S1 as S2. cbn [step shared] in S2. rewrite K in S2. apply bind_none in S2 as [S2|(oa & sa & ob & Sa & Sb & Qo)]; [elim (turn_none _ _ _ S2)|]. apply on_none in Sb as (oc & -> & Sb). subst o1.
    destruct (turn_ep _ _ _ _ Sa) as (od & Qd & _ & Qs). assert (TB : tab sa = tab s) by (rewrite Qs; reflexivity). rewrite TB in Sb.
    rewrite !app_at, seen_at, Nat.eqb_refl in P1, T1. rewrite Qd, ep_at in P1, T1. cbn [app] in P1, T1.
    destruct I as (PP & _). destruct (reach_run _ _ (v_tab _ _ _ PP i)) as [es' R].
    assert (Z : HolderModel.run HolderModel.c_init (es' ++ [HolderModel.Close]) = (at_conn i t ++ oc, None)) by (rewrite HolderProps.run_app, R; cbn [HolderModel.run]; now rewrite Sb).
    destruct (HolderProps.run_polite _ _ _ Z P1 T1) as (c & Y & _). discriminate. }
  destruct X as [s1 ->]. pose proof (step_INV _ _ _ _ _ _ I S1) as I1. destruct (run_flushes i (length (HolderModel.flush (tab s1 i))) s1) as (o2 & s2 & R2 & F2 & O2 & Q2). rewrite skipn_all in F2.
  exists (length (HolderModel.flush (tab s1 i))), (o1 ++ o2), s2. split; [cbn [run]; rewrite S1; cbn [bind]; now rewrite R2|]. pose proof (run_INV _ _ _ _ _ _ I1 R2) as I2. rewrite <- app_assoc in I2.
  intros r W2. destruct I2 as (P2 & OP2 & _). pose proof (v_L _ _ _ P2) as L2.
  pose proof (l_won _ _ L2 _ _ W2) as N. apply (l_fin _ _ L2). destruct (HolderModel.rs (tab s2 i) r) as [|w j|x] eqn:RR; [congruence| |eapply (l_done _ _ L2); eauto]. exfalso.
  assert (G3 : HolderSpec.polite (at_conn i (t ++ o1 ++ o2)) /\ HolderSpec.timely (at_conn i (t ++ o1 ++ o2))).
  { rewrite !app_at, app_assoc. apply still_polite; assumption. }
  destruct G3 as [G3 G4]. destruct (HolderProps.reach_polite _ _ (v_tab _ _ _ P2 i) G3 G4) as (_ & _ & PI2).
  destruct (HolderPolite.pi_closed _ _ PI2) as [_ F]; [|apply F in RR; rewrite F2 in RR; destruct RR]. rewrite O2. destruct I1 as (_ & OP1 & _). apply OP1.
  pose proof S1 as S2. cbn [step shared] in S2. rewrite K in S2. apply bind_some in S2 as (oa & sa & ob & Sa & Sb & _). rewrite (on_lp _ _ _ _ _ Sb). apply turn_ep in Sa as (od & _ & Sa & _).
  cbn [ClientModel.step] in Sa. unfold ClientModel.step_k in Sa. rewrite K in Sa. injection Sa as _ Sa. unfold lp. rewrite <- Sa. cbn. unfold ClientModel.upd. now rewrite Nat.eqb_refl.
Qed.
(** When both loops of a connection have ended and the endpoint has taken its report, the connection's last steps complete
    every request ever written on it. *)
Theorem C146_loss_completes_partial : forall n es t s i, start n es = (t, Some s) -> good_peers t -> ClientModel.ck (ClientModel.cn (ep s) i) = ClientModel.KFlush ->
  exists k o s', run s (Ep (ClientModel.K i) :: repeat (Flush i) k) = (o, Some s') /\ forall r, In r (written_on i t) -> In r (map fst (completions (t ++ o))).
Proof.
  intros n es t s i E G K. destruct (G i) as [G1 G2]. destruct (flush_completes _ _ _ _ (start_INV _ _ _ _ E) G1 G2 K) as (k & o & s' & R & Q). exists k, o, s'. split; [exact R|].
  intros r W. apply Q. rewrite app_written_on. apply in_app_iff. auto.
Qed.
Print Assumptions C146_loss_completes_partial.

(** * Where an observation comes from *)
Lemma split_app {A} (a b p q : list A) y : a ++ b = p ++ y :: q -> (exists q', a = p ++ y :: q') \/ exists p', p = a ++ p' /\ b = p' ++ y :: q.
Proof.
  intro E. apply app_eq_app in E as (l & [[E1 E2]|[E1 E2]]); [|right; now exists l]. destruct l as [|z l].
  - right. exists []. rewrite app_nil_r in *. cbn in E2. now subst.
  - left. injection E2 as <- ->. now exists l.
Qed.
Lemma run_origin n y : forall es t s o os, INV n t s -> run s es = (o, os) -> forall p q, o = p ++ y :: q ->
  exists t0 s0 e o0 os0 p0 q0, INV n t0 s0 /\ step s0 e = (o0, os0) /\ o0 = p0 ++ y :: q0 /\ t ++ p = t0 ++ p0.
Proof.
  induction es as [|e es IH]; intros t s o os I E p q Q; cbn [run] in E; [injection E as <- <-; now destruct p|].
  destruct (step s e) as [o1 [s1|]] eqn:S; cbn [bind] in E.
  - destruct (run s1 es) as [o2 os2] eqn:R. injection E as <- <-. destruct (split_app _ _ _ _ _ Q) as [[q' X]|(p' & -> & X)].
    + exists t, s, e, o1, (Some s1), p, q'. auto.
    + destruct (IH _ _ _ _ (step_INV _ _ _ _ _ _ I S) R _ _ X) as (t0 & s0 & e0 & o0 & os0 & p0 & q0 & A & B & C & D). rewrite app_assoc. now exists t0, s0, e0, o0, os0, p0, q0.
  - injection E as <- <-. now exists t, s, e, o1, None, p, q.
Qed.
Lemma origin n es t os p y q : start n es = (t, os) -> t = p ++ y :: q -> (forall z, y <> FEp z) ->
  exists t0 s0 e o0 os0 p0 q0, INV n t0 s0 /\ step s0 e = (o0, os0) /\ o0 = p0 ++ y :: q0 /\ p = t0 ++ p0.
Proof.
  unfold start. pose proof (INV_init n) as I. unfold f_init in *. destruct (ClientModel.s_init n) as [o0 s0] eqn:E0. cbn [fst snd] in I. intros E Q N. cbn [bind] in E. set (s1 := mkF _ _ _ _ _ _) in *.
  destruct (run s1 es) as [o2 os2] eqn:R. injection E as E _. subst t. destruct (split_app _ _ _ _ _ Q) as [[q' X]|(p' & -> & X)].
  - exfalso. assert (Y : In y (map FEp o0)) by (rewrite X; apply in_app_iff; right; now left). apply in_map_iff in Y as (z & Y & _). now apply (N z).
  - exact (run_origin n y es _ _ _ _ I R p' q X).
Qed.
(** the write that is seen *)
Lemma no_wire o y i id r : written o = [] -> In y o -> y <> FWire i id r.
Proof. intros W Y ->. assert (X : In r (written o)) by (apply in_flat_map; eexists; split; [exact Y|]; now left). rewrite W in X. destruct X. Qed.
Lemma turn_written s e o os : turn s e = (o, os) -> written o = [] /\ completions o = [].
Proof. unfold turn. destruct (ClientModel.step _ _). intro X. injection X as <- _. split; [apply ep_written|apply ep_completions]. Qed.
Lemma on_written s i e o os : OWN (tab s i) -> (forall r, e <> HolderModel.Send r) -> (forall r c, e <> HolderModel.Local r c) -> on s i e = (o, os) -> written o = [].
Proof.
  intros O N NL E. unfold on in E. destruct (HolderModel.step (tab s i) e) as [o1 [c|]] eqn:S; injection E as <- _; rewrite seen_written.
  - destruct (tab_step _ _ _ _ O NL S) as [_ [_ _ W|r w j id X _ _ _|r w j x _ _ _ ->]]; [now rewrite W|elim (N r X)|reflexivity].
  - apply tab_crash in S as (_ & -> & _). reflexivity.
Qed.
Lemma bind_written r f : written (fst r) = [] -> (forall s, snd r = Some s -> written (fst (f s)) = []) -> written (fst (bind r f)) = [].
Proof. destruct r as [o [s|]]; cbn [bind fst snd]; [|auto]. intros A B. specialize (B s eq_refl). destruct (f s). cbn [fst] in *. now rewrite app_written, A, B. Qed.
Lemma turn_w s e : written (fst (turn s e)) = []. Proof. destruct (turn s e) as [o os] eqn:E. now apply turn_written in E. Qed.
Lemma on_w n t s i e : INV n t s -> (forall r, e <> HolderModel.Send r) -> (forall r c, e <> HolderModel.Local r c) -> written (fst (on s i e)) = [].
Proof. intros (P & _) A B. destruct (on s i e) as [o os] eqn:E. cbn [fst]. eapply on_written; eauto. apply P. Qed.
Lemma bind_turn o s1 g e : exists o1, fst (bind (o, Some s1) (fun s => turn (g s) e)) = o ++ map FEp o1.
Proof. cbn [bind]. unfold turn. destruct (ClientModel.step _ _) as [o1 p]. now exists o1. Qed.
Lemma step_wire n t s e : INV n t s -> written (fst (step s e)) = [] \/
  exists i r id o1, fst (step s e) = FWire i id r :: map FEp o1 /\ hand s i = Some r /\ HolderModel.rs (tab s i) r = HolderModel.RNew.
Proof.
  intro I. destruct e; cbn [step]; try (left; first [apply turn_w | eapply on_w; [exact I|discriminate|discriminate] | reflexivity]; fail).
  - left. now destruct (_ || _).
  - left. now destruct (fin s r).
  - left. destruct (ClientModel.cw _); try reflexivity; destruct (queue s); try reflexivity; apply turn_w.
  - left. destruct (ClientModel.cw _); try reflexivity; apply turn_w.
  - left. destruct (hand s i); [eapply on_w; [exact I|discriminate|discriminate]|reflexivity].
  - destruct (ClientModel.cw _); try (left; reflexivity). destruct (hand s i) as [r|] eqn:H; [|left; apply turn_w]. destruct (HolderModel.pre (tab s i)) as [[a b]|] eqn:PR; [|left; reflexivity].
    unfold on. cbn [HolderModel.step]. rewrite PR. destruct (HolderModel.rs (tab s i) r) eqn:R; [destruct (HolderModel.open (tab s i))| |].
    + right. match goal with |- context [bind (_, Some ?s1) (fun s0 => turn (w_hand s0 i None) ?e)] => destruct (bind_turn (map (seen i) [HolderModel.OWire (HolderModel.fake (HolderModel.slots (HolderModel.rows (HolderModel.hold (tab s i)) a) b)) r]) s1 (fun s0 => w_hand s0 i None) e) as [o1 X] end.
      exists i, r. eexists. exists o1. split; [exact X|]. auto.
    + left. apply bind_written; [reflexivity|]. intros. apply turn_w.
    + left. apply bind_written; [reflexivity|]. intros. apply turn_w.
    + left. apply bind_written; [reflexivity|]. intros. apply turn_w.
  - left. destruct (ClientModel.cr _); try reflexivity. eapply on_w; [exact I|discriminate|discriminate].
  - left. apply bind_written; [apply turn_w|]. intros s1 _. destruct (says_all _); [|reflexivity]. cbn [all_disconnected fst]. apply written_q.
  - left. destruct e; cbn [shared]; try apply turn_w; try reflexivity.
    + destruct (ClientModel.cw _); try reflexivity; try apply turn_w. destruct (ClientModel.stopped _); [|apply turn_w]. apply bind_written; [eapply on_w; [exact I|discriminate|discriminate]|]. intros. apply turn_w.
    + destruct (ClientModel.cw _); try reflexivity; try apply turn_w.
    + destruct (ClientModel.sp _); try reflexivity. destruct (ClientModel.cw _); try reflexivity. destruct (_ =? _)%nat; [|reflexivity]. apply bind_written; [eapply on_w; [exact I|discriminate|discriminate]|]. intros. apply turn_w.
    + destruct (HolderModel.reader _); [reflexivity|apply turn_w].
    + destruct (ClientModel.ck (ClientModel.cn (ep s) i)) eqn:K; try apply turn_w. apply bind_written; [apply turn_w|]. intros s1 X. destruct (turn s (ClientModel.K i)) as [o os] eqn:T. cbn [snd] in X. subst os.
      destruct (on s1 i HolderModel.Close) as [o2 os2] eqn:C. cbn [fst]. apply (on_written s1 i HolderModel.Close o2 os2); [|discriminate|discriminate|exact C]. apply turn_fields in T as (-> & _). apply I.
Qed.
(** A request is written only after it was handed over, and never after it is complete: not after a timeout, not after it was
    cancelled, not after it failed. *)
Theorem C146_written_only_while_wanted : forall n es t os, start n es = (t, os) -> forall p i id r q, t = p ++ FWire i id r :: q ->
  In (FSent r) p /\ ~ In r (map fst (completions p)).
Proof.
  intros n es t os E p i id r q Q. destruct (origin n es t os p _ q E Q) as (t0 & s0 & e & o0 & os0 & p0 & q0 & I & S & Q0 & ->); [discriminate|].
  pose proof (step_wire _ _ _ e I) as X. rewrite S in X. cbn [fst] in X. destruct X as [X|(j & r' & id' & o1 & X & H & R)].
  - exfalso. apply (no_wire o0 (FWire i id r) i id r X); [rewrite Q0; apply in_app_iff; right; now left|reflexivity].
  - assert (Y : p0 = [] /\ i = j /\ r = r').
    { rewrite X in Q0. destruct p0 as [|y p0]; [injection Q0; auto|]. exfalso. injection Q0 as _ Q0. assert (Y : In (FWire i id r) (map FEp o1)) by (rewrite Q0; apply in_app_iff; right; now left).
      apply in_map_iff in Y as (z & Y & _). discriminate. }
    destruct Y as (-> & -> & ->). rewrite app_nil_r. destruct I as (P & _). pose proof (v_L _ _ _ P) as I. destruct (l_hand _ _ I _ _ H) as (S1 & _). split; [now apply (l_sent _ _ I)|].
    rewrite <- (l_fin _ _ I). intro F. elim (l_new _ _ I _ j F); [right; now exists j|exact R].
Qed.
Print Assumptions C146_written_only_while_wanted.

(** What the endpoint fails because it has no connection left was never written; it is failed with an I/O error, after the
    endpoint has found that no connection is established. *)
Lemma in_completions w r x o : In (FDone w r x) o -> In (r, x) (completions o).
Proof. intro X. apply in_flat_map. eexists. split; [exact X|]. now left. Qed.
(** the completion that is seen *)
Lemma on_done s k e o os w r x : OWN (tab s k) -> (forall r c, e <> HolderModel.Local r c) -> on s k e = (o, os) -> In (FDone w r x) o ->
  w = ByConn k /\ (exists a b, HolderModel.rs (tab s k) r = HolderModel.RFly a b) /\ (e = HolderModel.Deliver /\ HolderModel.reader (tab s k) <> None \/ e = HolderModel.Flush /\ HolderModel.flush (tab s k) <> []).
Proof.
  intros O NL E D. unfold on in E. destruct (HolderModel.step (tab s k) e) as [o1 oc] eqn:S.
  assert (Q : o = map (seen k) o1) by (destruct oc; injection E; congruence). subst o.
  assert (W : w = ByConn k) by (apply in_map_iff in D as (y & Y & _); destruct y; try discriminate; injection Y; congruence). split; [exact W|].
  apply in_completions in D. rewrite seen_completions in D. destruct oc as [c|]; [|apply tab_crash in S as (S & _); rewrite S in D; destruct D].
  destruct (tab_step _ _ _ _ O NL S) as [_ [_ X _|r' w' j id _ _ _ X|r' w' j x' EE R _ X]]; [rewrite X in D; destruct D|rewrite X in D; destruct D|]. subst o1. destruct D as [D|[]]. injection D as <- <-.
  split; [eauto|]. destruct EE as [-> | ->]; [left|right]; (split; [reflexivity|]); intro Y; cbn [HolderModel.step] in S; rewrite Y in S; discriminate.
Qed.
Definition done_by (s : st) (e : ev) (w : who) (r : rid) (x : HolderModel.outcome) : Prop :=
  w = ByUser \/ (w = ByQueue /\ In r (queue s) /\ fin s r = false /\ x = HolderModel.IOError /\ exists k, e = Report k) \/
  exists k, w = ByConn k /\ (exists a b, HolderModel.rs (tab s k) r = HolderModel.RFly a b) /\ (e = Deliver k /\ HolderModel.reader (tab s k) <> None \/ e = Flush k /\ HolderModel.flush (tab s k) <> []).
Lemma no_done o w r x : completions o = [] -> ~ In (FDone w r x) o. Proof. intros C D. apply in_completions in D. rewrite C in D. destruct D. Qed.
Lemma quiet_on s k e o os : OWN (tab s k) -> match e with HolderModel.Deliver | HolderModel.Flush | HolderModel.Local _ _ => False | _ => True end -> on s k e = (o, os) -> forall w r x, ~ In (FDone w r x) o.
Proof. intros O N E w r x D. destruct (on_done s k e o os w r x O) as (_ & _ & [[-> _]|[-> _]]); auto. intros r0 c ->. exact N. Qed.
Lemma bind_in (r : result) f o os y : bind r f = (o, os) -> In y o -> In y (fst r) \/ exists o1 s1, r = (o1, Some s1) /\ In y (fst (f s1)).
Proof. destruct r as [o1 [s1|]]; cbn [bind]; [|intro X; injection X as <- <-; auto]. destruct (f s1) as [o2 os2] eqn:E. intro X. injection X as <- _. rewrite in_app_iff. intros [Y|Y]; [auto|]. right. exists o1, s1. now rewrite E. Qed.
Lemma turn_nodone s e o os w r x : turn s e = (o, os) -> ~ In (FDone w r x) o. Proof. intro E. apply turn_written in E as [_ E]. now apply no_done. Qed.
Lemma step_done n t s e o os w r x : INV n t s -> step s e = (o, os) -> In (FDone w r x) o -> done_by s e w r x.
Proof.
  intros I E D. pose proof I as (P & _). assert (OW := v_own _ _ _ P). assert (F : ~ In (FDone w r x) [] ) by (intros []).
  assert (TN : forall s e, turn s e = (o, os) -> False) by (intros s0 e0 T; exact (turn_nodone _ _ _ _ _ _ _ T D)).
  assert (QO : forall k e', match e' with HolderModel.Deliver | HolderModel.Flush | HolderModel.Local _ _ => False | _ => True end -> on s k e' = (o, os) -> False) by (intros k e' M T; exact (quiet_on _ _ _ _ _ (OW k) M T w r x D)).
  assert (SK : skip s = (o, os) -> False) by (intro X; injection X as <- _; destruct D).
  assert (BT : forall k e' f e2, match e' with HolderModel.Deliver | HolderModel.Flush | HolderModel.Local _ _ => False | _ => True end -> bind (on s k e') (fun s => turn (f s) e2) = (o, os) -> False).
  { intros k e' f e2 M T. destruct (bind_in _ _ _ _ _ T D) as [X|(o1 & s1 & _ & X)].
    - destruct (on s k e') as [o1 os1] eqn:Q. exact (quiet_on _ _ _ _ _ (OW k) M Q w r x X).
    - destruct (turn (f s1) e2) as [o2 os2] eqn:Q. exact (turn_nodone _ _ _ _ _ _ _ Q X). }
  destruct e; cbn [step] in E; unfold done_by.
  - destruct (_ || _); [elim (SK E)|]. injection E as <- _. destruct D as [D|[]]; discriminate.
  - destruct (fin s r0); [elim (SK E)|]. injection E as <- _. destruct D as [D|[]]. injection D as <- _ _. auto.
  - destruct (ClientModel.cw _); try elim (SK E); destruct (queue s); try elim (SK E); elim (TN _ _ E).
  - destruct (ClientModel.cw _); try elim (SK E); elim (TN _ _ E).
  - destruct (hand s i); [elim (QO i HolderModel.Prefetch Logic.I E)|elim (SK E)].
  - destruct (ClientModel.cw _); try elim (SK E). destruct (hand s i); [|elim (TN _ _ E)]. destruct (HolderModel.pre _); [|elim (SK E)]. elim (BT i (HolderModel.Send r0) (fun s => w_hand s i None) _ Logic.I E).
  - destruct (ClientModel.cr _); try elim (SK E). elim (QO i (HolderModel.Resp id code body) Logic.I E).
  - destruct (on_done s i HolderModel.Deliver o os w r x (OW i) ltac:(intros; discriminate) E D) as (A & B & [[C1 C2]|[C1 _]]); [|discriminate]. right. right. exists i. auto.
  - destruct (on_done s i HolderModel.Flush o os w r x (OW i) ltac:(intros; discriminate) E D) as (A & B & [[C1 _]|[C1 C2]]); [discriminate|]. right. right. exists i. auto.
  - right. left. destruct (bind_in _ _ _ _ _ E D) as [X|(o1 & s1 & T & X)]; [elim (turn_nodone s ClientModel.TakeErr _ (snd (turn s ClientModel.TakeErr)) w r x (surjective_pairing _) X)|].
    apply turn_fields in T as (_ & Q & _ & _ & FF). destruct (says_all _); [|destruct X]. cbn [all_disconnected fst] in X. apply in_map_iff in X as (r1 & X & Y). injection X as <- <- <-. apply in_failing in Y as [Y1 Y2]. rewrite Q in Y1. rewrite FF in Y2.
    repeat split; auto; [|eauto]. rewrite <- (firstn_skipn k (queue s)). apply in_app_iff. auto.
  - exfalso. destruct e; cbn [shared] in E; try exact (TN _ _ E); try exact (SK E).
    + destruct (ClientModel.cw _); try exact (TN _ _ E); try exact (SK E). destruct (ClientModel.stopped _); [|exact (TN _ _ E)]. exact (BT i HolderModel.Stop (fun s => s) _ Logic.I E).
    + destruct (ClientModel.cw _); try exact (TN _ _ E); try exact (SK E).
    + destruct (ClientModel.sp _); try exact (SK E). destruct (ClientModel.cw _); try exact (SK E). destruct (_ =? _)%nat; [|exact (SK E)]. exact (BT i HolderModel.Stop (fun s => s) _ Logic.I E).
    + destruct (HolderModel.reader _); [exact (SK E)|exact (TN _ _ E)].
    + destruct (ClientModel.ck _); try exact (TN _ _ E). destruct (bind_in _ _ _ _ _ E D) as [X|(o1 & s1 & T & X)]; [exact (turn_nodone s (ClientModel.K i) _ (snd (turn s (ClientModel.K i))) w r x (surjective_pairing _) X)|].
      destruct (on s1 i HolderModel.Close) as [o2 os2] eqn:Q. apply turn_fields in T as (T & _). refine (quiet_on s1 i HolderModel.Close _ _ _ Logic.I Q w r x X). rewrite T. apply OW.
Qed.
Theorem C146_endpoint_fails_the_unwritten : forall n es t os, start n es = (t, os) -> forall p r x q, t = p ++ FDone ByQueue r x :: q ->
  x = HolderModel.IOError /\ ~ In r (written p) /\ In (FEp ClientModel.OAllDisc) p.
Proof.
  intros n es t os E p r x q Q. destruct (origin n es t os p _ q E Q) as (t0 & s0 & e & o0 & os0 & p0 & q0 & I & S & Q0 & ->); [discriminate|].
  assert (D : In (FDone ByQueue r x) o0) by (rewrite Q0; apply in_app_iff; right; now left).
  destruct (step_done _ _ _ _ _ _ _ _ _ I S D) as [X|[(_ & A & B & C & k & ->)|(k & X & _)]]; try discriminate. split; [exact C|]. pose proof I as (P & _). pose proof (v_L _ _ _ P) as LL.
  assert (W0 : ~ In r (written t0)) by (intro W; destruct (l_wr _ _ LL _ W) as (_ & W2 & _); contradiction).
  cbn [step] in S. destruct (turn s0 ClientModel.TakeErr) as [o1 [s1|]] eqn:T; [|elim (turn_none _ _ _ T)]. cbn [bind fst] in S. pose proof (turn_ep _ _ _ _ T) as (o2 & -> & _).
  destruct (says_all (map FEp o2)) eqn:SA; cbn [all_disconnected skip] in S; injection S as S _.
  2:{ exfalso. rewrite app_nil_r in S. rewrite <- S in D. apply in_map_iff in D as (z & Z & _). discriminate. }
  rewrite Q0 in S. destruct (split_app _ _ _ _ _ S) as [[q' X]|(p' & -> & X)].
  { exfalso. assert (Y : In (FDone ByQueue r x) (map FEp o2)) by (rewrite X; apply in_app_iff; right; now left). apply in_map_iff in Y as (z & Y & _). discriminate. }
  assert (WP : written p' = []).
  { pose proof (written_q (failing s1 k)) as W. rewrite X, app_written in W. now apply app_eq_nil in W. }
  split.
  - rewrite !app_written, ep_written, WP. cbn [app]. rewrite app_nil_r. exact W0.
  - apply in_app_iff. right. apply in_app_iff. left. unfold says_all in SA. apply existsb_exists in SA as (y & Y1 & Y2). destruct y as [| | | | |[]]; try discriminate. exact Y1.
Qed.
Print Assumptions C146_endpoint_fails_the_unwritten.

(** * A stopped endpoint *)
(** a table that nobody works on any more *)
Lemma idle_tab c e o c' r a b : match e with HolderModel.Resp _ _ _ | HolderModel.Close | HolderModel.Local _ _ => False | _ => True end -> HolderModel.reader c = None -> HolderModel.flush c = [] ->
  HolderModel.rs c r = HolderModel.RFly a b -> HolderModel.step c e = (o, Some c') -> HolderModel.reader c' = None /\ HolderModel.flush c' = [] /\ HolderModel.rs c' r = HolderModel.RFly a b.
Proof.
  intros M R F Q E. destruct e as [|r'|id code body| |r' code| | |]; try contradiction; cbn [HolderModel.step] in E.
  - destruct (HolderModel.pre c); [injection E as <- <-; auto|]. destruct (HolderModel.open c); [|injection E as <- <-; auto]. destruct (HolderModel.getNext _) as [[h x]|]; [|discriminate]. injection E as <- <-. auto.
  - destruct (HolderModel.pre c) as [[w i]|]; [|injection E as <- <-; auto]. destruct (HolderModel.rs c r') eqn:Q2; try (injection E as <- <-; auto; fail). destruct (HolderModel.open c); injection E as <- <-; auto.
    cbn. unfold HolderModel.updr. destruct (Nat.eqb_spec r r'); [congruence|auto].
  - rewrite R in E. injection E as <- <-. auto.
  - injection E as <- <-. auto.
  - rewrite F in E. injection E as <- <-. auto.
Qed.
(** connection i waits for ever to report, with request r in flight *)
Definition stranded (s : st) (i : nat) (r : rid) : Prop :=
  ClientProofs.jammed (ep s) i /\ (fin s r = true \/ HolderModel.reader (tab s i) = None /\ HolderModel.flush (tab s i) = [] /\ exists a b, HolderModel.rs (tab s i) r = HolderModel.RFly a b).
Lemma turn_jam n t s e o s' i : PI n t s -> ClientProofs.jammed (ep s) i -> turn s e = (o, Some s') -> ClientProofs.jammed (ep s') i.
Proof.
  intros P J T. apply turn_ep in T as (o1 & _ & T & _). destruct (v_ep _ _ _ P) as [es E]. apply ClientProofs.start_GI in E. exact (proj1 (ClientProofs.jammed_step _ _ _ _ _ J (ClientProofs.g_v _ _ E i) T)).
Qed.
Lemma turn_stranded n t s e o s' i r : PI n t s -> stranded s i r -> turn s e = (o, Some s') -> stranded s' i r.
Proof. intros P [J Q] T. split; [eapply turn_jam; eauto|]. apply turn_fields in T as (-> & _ & _ & _ & ->). exact Q. Qed.
Lemma on_stranded s k e o s' i r : stranded s i r -> (k = i -> match e with HolderModel.Resp _ _ _ | HolderModel.Close | HolderModel.Local _ _ => False | _ => True end) -> on s k e = (o, Some s') -> stranded s' i r.
Proof.
  intros [J Q] M E. apply on_tab in E as (o1 & c & -> & E & ->). split; [exact J|]. cbn [fin tab w_tab w_fin]. destruct Q as [->|(R & F & a & b & Q)]; [left; now rewrite orb_true_r|]. right.
  eqb i k; [|eauto]. destruct (idle_tab _ _ _ _ _ _ _ (M eq_refl) R F Q E) as (A & B & C). eauto.
Qed.
Lemma jam_loops n t s i : PI n t s -> ClientProofs.jammed (ep s) i -> ClientModel.cr (lp s i) = ClientModel.REnd /\ ClientModel.ck (lp s i) = ClientModel.KMsg.
Proof. intros P (_ & _ & K). pose proof (creach_valid _ _ _ (v_ep _ _ _ P) i) as V. apply ClientProofs.v_ck in V. rewrite K in V. destruct V. auto. Qed.
Lemma step_stranded n t s e o s' i r : INV n t s -> stranded s i r -> step s e = (o, Some s') -> stranded s' i r.
Proof.
  intros I J E. pose proof I as (P & O & H). pose proof J as [JJ Q]. destruct (jam_loops _ _ _ _ P JJ) as [CR CK]. unfold lp in CR, CK.
  assert (SK : skip s = (o, Some s') -> stranded s' i r) by (intro X; injection X as _ <-; exact J).
  assert (TN : forall e, turn s e = (o, Some s') -> stranded s' i r) by (intros e' T; eapply turn_stranded; eauto).
  assert (BT : forall k e1 f e2, (k = i -> match e1 with HolderModel.Resp _ _ _ | HolderModel.Close | HolderModel.Local _ _ => False | _ => True end) ->
    (forall s, ep (f s) = ep s /\ tab (f s) = tab s /\ fin (f s) = fin s) -> bind (on s k e1) (fun s => turn (f s) e2) = (o, Some s') -> stranded s' i r).
  { intros k e1 f e2 M FF X. apply bind_some in X as (o1 & s1 & o2 & X1 & X2 & _). pose proof (on_stranded _ _ _ _ _ _ _ J M X1) as J1. destruct (FF s1) as (F1 & F2 & F3).
    assert (EP : ep s1 = ep s) by (apply on_tab in X1 as (? & ? & _ & _ & ->); reflexivity).
    assert (J2 : stranded (f s1) i r) by (unfold stranded in *; now rewrite F1, F2, F3). destruct J2 as [J2 Q2]. split.
    - apply turn_ep in X2 as (o3 & _ & X2 & _). rewrite F1, EP in X2. destruct (v_ep _ _ _ P) as [es0 E0]. apply ClientProofs.start_GI in E0. exact (proj1 (ClientProofs.jammed_step _ _ _ _ _ JJ (ClientProofs.g_v _ _ E0 i) X2)).
    - apply turn_fields in X2 as (-> & _ & _ & _ & ->). exact Q2. }
  destruct e; cbn [step] in E.
  - destruct (_ || _); [auto|]. injection E as _ <-. exact J.
  - destruct (fin s r0) eqn:F; [auto|]. injection E as _ <-. split; [exact JJ|]. cbn [fin tab w_fin w_tabs]. destruct Q as [->|(R & FL & a & b & Q)]; [left; now rewrite orb_true_r|].
    destruct (Nat.eq_dec r r0) as [->|N]; [left; cbn; now rewrite Nat.eqb_refl|]. right. destruct (local_step (tab s i) r0 code (v_own _ _ _ P i)) as (c' & E & _ & RS & _ & RD & _ & FL2); [intros x X; apply (l_done _ _ (v_L _ _ _ P)) in X; congruence|].
    unfold local. rewrite E. cbn [snd]. rewrite RD, FL2, RS. unfold HolderModel.updr. destruct (Nat.eqb_spec r r0); [congruence|eauto].
  - assert (TK : forall r0 q, turn (w_hand (w_queue s q) i0 (Some r0)) (ClientModel.WGet i0) = (o, Some s') -> stranded s' i r).
    { intros r0 q T. split.
      - apply turn_ep in T as (o3 & _ & T & _). cbn [ep w_hand w_queue] in T. destruct (v_ep _ _ _ P) as [es0 E0]. apply ClientProofs.start_GI in E0. exact (proj1 (ClientProofs.jammed_step _ _ _ _ _ JJ (ClientProofs.g_v _ _ E0 i) T)).
      - apply turn_fields in T as (-> & _ & _ & _ & ->). exact Q. }
    destruct (ClientModel.cw _); auto; destruct (queue s); eauto.
  - destruct (ClientModel.cw _); eauto.
  - destruct (hand s i0); [|auto]. eapply on_stranded; [exact J| |exact E]. intros _. exact Logic.I.
  - destruct (ClientModel.cw _); auto. destruct (hand s i0) as [r0|]; [|eauto]. destruct (HolderModel.pre _); auto. eapply (BT i0 (HolderModel.Send r0) (fun s => w_hand s i0 None)); [intros _; exact Logic.I| |exact E]. intro. now repeat split.
  - destruct (ClientModel.cr (ClientModel.cn (ep s) i0)) eqn:C; auto. eapply on_stranded; [exact J| |exact E]. intros ->. congruence.
  - eapply on_stranded; [exact J| |exact E]. intros _. exact Logic.I.
  - eapply on_stranded; [exact J| |exact E]. intros _. exact Logic.I.
  - apply bind_some in E as (o1 & s1 & o2 & T & X & _). pose proof (turn_stranded _ _ _ _ _ _ _ _ P J T) as [J1 Q1]. destruct (says_all _); [|injection X as _ <-; now split]. injection X as _ <-. split; [exact J1|].
    cbn [fin tab w_queue w_fin]. destruct Q1 as [->|Q1]; [left; now rewrite orb_true_r|auto].
  - destruct e; cbn [shared] in E; eauto.
    + destruct (ClientModel.cw _); eauto. destruct (ClientModel.stopped _); eauto. eapply (BT i0 HolderModel.Stop (fun s => s)); [intros _; exact Logic.I| |exact E]. intro. now repeat split.
    + destruct (ClientModel.cw _); eauto.
    + destruct (ClientModel.sp _); auto. destruct (ClientModel.cw _); auto. destruct (_ =? _)%nat; auto. eapply (BT i0 HolderModel.Stop (fun s => s)); [intros _; exact Logic.I| |exact E]. intro. now repeat split.
    + destruct (HolderModel.reader _); eauto.
    + destruct (ClientModel.ck (ClientModel.cn (ep s) i0)) eqn:C; eauto. apply bind_some in E as (o1 & s1 & o2 & T & X & _). eapply on_stranded; [eapply turn_stranded; eauto| |exact X]. intros ->. congruence.
Qed.
Lemma stranded_done n t s e o os i r w x : INV n t s -> stranded s i r -> step s e = (o, os) -> In (FDone w r x) o -> w = ByUser.
Proof.
  intros I [_ J] S D. pose proof I as (P & _). pose proof (v_L _ _ _ P) as LL. destruct (step_done _ _ _ _ _ _ _ _ _ I S D) as [X|[(_ & A & B & _)|(k & -> & (a & b & R) & X)]]; [exact X| |].
  - exfalso. destruct J as [J|(_ & _ & a & b & R)]; [congruence|]. destruct (l_fly _ _ LL _ _ _ _ R) as (_ & Y & _). contradiction.
  - exfalso. destruct (l_fly _ _ LL _ _ _ _ R) as (F & _ & _ & N & _). destruct J as [J|(RD & FL & c & d & R2)]; [congruence|].
    assert (k = i) by (destruct (Nat.eq_dec k i) as [->|Z]; [reflexivity|]; rewrite (N i) in R2 by congruence; discriminate). subst k. destruct X as [[_ X]|[_ X]]; congruence.
Qed.
Lemma stranded_run n i r : forall es t s o os, INV n t s -> stranded s i r -> run s es = (o, os) -> forall w x, In (FDone w r x) o -> w = ByUser.
Proof.
  induction es as [|e es IH]; intros t s o os I J E w x D; cbn [run] in E; [injection E as <- <-; destruct D|].
  destruct (step s e) as [o1 [s1|]] eqn:S; cbn [bind] in E.
  - destruct (run s1 es) as [o2 os2] eqn:R. injection E as <- <-. apply in_app_iff in D as [D|D]; [exact (stranded_done _ _ _ _ _ _ _ _ _ _ I J S D)|].
    exact (IH _ _ _ _ (step_INV _ _ _ _ _ _ I S) (step_stranded _ _ _ _ _ _ _ _ I J S) R _ _ D).
  - injection E as <- <-. exact (stranded_done _ _ _ _ _ _ _ _ _ _ I J S D).
Qed.
(** Three connections, one request written on the second, the endpoint is stopped: the request is never completed by anything
    but its own timeout or its user. Its connection was lost before the answer came. *)
Definition fup (i : nat) : list ev := [Ep (ClientModel.CStart i); Ep (ClientModel.CDial i true); Ep (ClientModel.CSend i); Report 0; Ep (ClientModel.CSet i); Ep (ClientModel.W i); Ep (ClientModel.W i)].
Definition C146_three : list ev :=
  fup 1 ++ fup 2 ++ fup 3 ++ [Send 7%nat; Take 2; Fetch 2; Write 2 true; Ep (ClientModel.W 2); Ep (ClientModel.W 2)] ++
  map Ep [ClientModel.Stop; ClientModel.TakeExit; ClientModel.Tick; ClientModel.Visit 1; ClientModel.WExit 1; ClientModel.Visit 2; ClientModel.WExit 2; ClientModel.Visit 3; ClientModel.WExit 3;
   ClientModel.W 1; ClientModel.W 1; ClientModel.W 2; ClientModel.W 2; ClientModel.W 3; ClientModel.W 3; ClientModel.RFail 1; ClientModel.R 1; ClientModel.K 1; ClientModel.K 1; ClientModel.K 1;
   ClientModel.RFail 2; ClientModel.R 2; ClientModel.K 2; ClientModel.K 2].
Definition C146_three_trace : list obs :=
  map FEp [ClientModel.OOpen 1; ClientModel.OOpen 2; ClientModel.OOpen 3; ClientModel.OUp 1; ClientModel.OUp 2; ClientModel.OUp 3] ++ [FSent 7%nat; FWire 2 1 7%nat] ++
  map FEp [ClientModel.OStop 1; ClientModel.OStop 2; ClientModel.OStop 3; ClientModel.OEnd].
Theorem C146_stop_abandons_requests_refuted : exists t s, start 3 C146_three = (t, Some s) /\ In (FSent 7%nat) t /\ In (FWire 2 1 7%nat) t /\ In (FEp ClientModel.OEnd) t /\ good_peers t /\
  ~ In 7%nat (map fst (completions t)) /\ abandoned s 7%nat.
Proof.
  destruct (start 3 C146_three) as [t [s|]] eqn:E; [|exfalso; assert (X : snd (start 3 C146_three) <> None) by (vm_compute; discriminate); rewrite E in X; now apply X].
  exists t, s. pose proof (start_INV _ _ _ _ E) as I. split; [reflexivity|].
  assert (T : t = C146_three_trace) by (apply (f_equal fst) in E; cbn [fst] in E; rewrite <- E; vm_compute; reflexivity).
  assert (W : stranded s 2 7%nat).
  { assert (X : match snd (start 3 C146_three) with Some s => ClientModel.sp (ep s) = ClientModel.SDone /\ (ClientModel.cap <=? length (ClientModel.ch (ep s)))%nat = true /\ ClientModel.ck (ClientModel.cn (ep s) 2) = ClientModel.KMsg /\
      HolderModel.reader (tab s 2) = None /\ HolderModel.flush (tab s 2) = [] /\ HolderModel.rs (tab s 2) 7%nat = HolderModel.RFly 0 1 | None => False end) by (vm_compute; repeat split; reflexivity).
    rewrite E in X. cbn [snd] in X. destruct X as (A & B & C & D & F & G). split; [split; [exact A|split; [now apply Nat.leb_le in B|exact C]]|]. right. eauto. }
  subst t. split; [vm_compute; tauto|]. split; [vm_compute; tauto|]. split; [vm_compute; tauto|]. split.
  - intro i. destruct i as [|[|[|[|i]]]]; (match goal with |- HolderSpec.polite ?t /\ _ => destruct (HolderProps.politeb_all t) as (A & B & _); [vm_compute; reflexivity|now split] end).
  - split; [vm_compute; tauto|]. intros es t os R w x D. exact (stranded_run _ _ _ _ _ _ _ _ I W R w x D).
Qed.
Print Assumptions C146_stop_abandons_requests_refuted.

(** * Examples *)
Ltac peers := let i := fresh "i" in intro i; destruct i as [|[|[|[|i]]]]; (match goal with |- HolderSpec.polite ?t /\ _ => destruct (HolderProps.politeb_all t) as (A & B & _); [vm_compute; reflexivity|now split] end).
(** Two connections and six requests. Request 1 is written on connection 1 and answered with 42, request 2 on connection 2 and
    cancelled by its user before its answer comes, request 3 is cancelled before it is written, request 4 is with connection 2 when
    it is lost. Connection 1 is lost with request 5 in flight; the endpoint fails request 6, which nobody took. *)
Definition C146_history : list ev :=
  fup 1 ++ fup 2 ++ [Send 1%nat; Send 2%nat; Take 1; Send 3%nat; Fetch 1; Take 2; Write 1 true; Fetch 2; Write 2 true; Ep (ClientModel.W 1); Ep (ClientModel.W 2); Take 1; Local 3%nat 16; Fetch 1; Write 1 true;
   Local 2%nat 16; Resp 1 1 42 [5%Z]; Deliver 1; Resp 2 1 0 []; Deliver 2; Send 4%nat; Send 5%nat; Send 6%nat; Ep (ClientModel.W 2); Take 2; Fetch 2; Write 2 false; Ep (ClientModel.W 1); Ep (ClientModel.W 1); Take 1; Write 1 true;
   Ep (ClientModel.RFail 2); Ep (ClientModel.R 2); Ep (ClientModel.W 2); Ep (ClientModel.W 2); Ep (ClientModel.R 2); Ep (ClientModel.K 2); Ep (ClientModel.K 2); Ep (ClientModel.K 2); Report 1; Report 1].
Definition C146_trace : list obs :=
  [FEp (ClientModel.OOpen 1); FEp (ClientModel.OOpen 2); FEp (ClientModel.OUp 1); FEp (ClientModel.OUp 2); FSent 1%nat; FSent 2%nat; FSent 3%nat; FWire 1 1 1%nat; FWire 2 1 2%nat;
   FDone ByUser 3%nat (HolderModel.Elsewhere 16); FDone ByUser 2%nat (HolderModel.Elsewhere 16); FGot 1 1 42 [5%Z]; FDone (ByConn 1) 1%nat (HolderModel.Answer 42 [5%Z]); FGot 2 1 0 [];
   FSent 4%nat; FSent 5%nat; FSent 6%nat; FWire 2 2 4%nat; FWire 1 2 5%nat; FEp (ClientModel.ODown 2); FEp (ClientModel.ODead 2)].
(** connection 2 ends, then connection 1; the endpoint has no connection left and dials anew *)
Definition C146_end : list ev :=
  [Ep (ClientModel.K 2); Flush 2; Ep (ClientModel.W 1); Ep (ClientModel.W 1); Ping 1; Write 1 false; Ep (ClientModel.W 1); Ep (ClientModel.W 1); Report 2;
   Ep (ClientModel.RFail 1); Ep (ClientModel.R 1); Ep (ClientModel.K 1); Ep (ClientModel.K 1); Ep (ClientModel.K 1); Report 0; Ep (ClientModel.K 1); Flush 1].
Definition C146_end_trace : list obs :=
  [FEp (ClientModel.OFlush 2); FClosed 2; FDone (ByConn 2) 4%nat HolderModel.IOError; FEp (ClientModel.ODown 1); FEp ClientModel.OAllDisc; FDone ByQueue 6%nat HolderModel.IOError; FEp (ClientModel.ODead 1);
   FEp (ClientModel.OFlush 1); FClosed 1; FDone (ByConn 1) 5%nat HolderModel.IOError].
Example C146_example : exists s s', start 2 C146_history = (C146_trace, Some s) /\ good_peers C146_trace /\ never_ahead C146_trace /\
  ClientModel.ck (ClientModel.cn (ep s) 2) = ClientModel.KFlush /\ queue s = [6%nat] /\
  start 2 (C146_history ++ C146_end) = (C146_trace ++ C146_end_trace, Some s') /\ good_peers (C146_trace ++ C146_end_trace).
Proof.
  destruct (start 2 C146_history) as [t [s|]] eqn:E; [|exfalso; assert (X : snd (start 2 C146_history) <> None) by (vm_compute; discriminate); rewrite E in X; now apply X].
  destruct (start 2 (C146_history ++ C146_end)) as [t' [s'|]] eqn:E'; [|exfalso; assert (X : snd (start 2 (C146_history ++ C146_end)) <> None) by (vm_compute; discriminate); rewrite E' in X; now apply X].
  assert (T : t = C146_trace) by (apply (f_equal fst) in E; cbn [fst] in E; rewrite <- E; vm_compute; reflexivity).
  assert (T' : t' = C146_trace ++ C146_end_trace) by (apply (f_equal fst) in E'; cbn [fst] in E'; rewrite <- E'; vm_compute; reflexivity).
  assert (X : match snd (start 2 C146_history) with Some s => ClientModel.ck (ClientModel.cn (ep s) 2) = ClientModel.KFlush /\ queue s = [6%nat] | None => False end) by (vm_compute; now split). rewrite E in X. cbn [snd] in X.
  exists s, s'. subst t t'. split; [reflexivity|]. split; [peers|]. split.
  - intro i. destruct i as [|[|[|i]]]; (match goal with |- forall p id code body q, ?t = _ -> _ => destruct (HolderProps.politeb_all t) as (_ & _ & N); [vm_compute; reflexivity|]; exact N end).
  - destruct X as [X1 X2]. split; [exact X1|]. split; [exact X2|]. split; [reflexivity|peers].
Qed.
