(** The properties C44-C47 and C71 of a server connection (net/server/connection.go, server.go). *)
From Coq Require Import ZArith List Bool Arith Lia Permutation.
Import ListNotations.
From Verif Require Import ServerModel ServerSpec ServerProofs ServerTrace ServerIds ServerEnd.
Open Scope Z_scope.

(** ** C44 *)
Lemma kind_mod c : kind c = c mod 8.
Proof. unfold kind, RcKindMask. change 7 with (Z.ones 3). now rewrite Z.land_ones by lia. Qed.
Lemma to_fatal c : Z.lor (Z.ldiff c RcKindMask) RcFatal = c - c mod 8 + 2.
Proof.
  assert (D : Z.ldiff c 7 = 8 * (c / 8)). { change 7 with (Z.ones 3). rewrite Z.ldiff_ones_r by lia. rewrite Z.shiftr_div_pow2, Z.shiftl_mul_pow2 by lia. change (2 ^ 3) with 8. lia. }
  unfold RcKindMask, RcFatal. rewrite D. pose proof (Z_div_mod_eq_full c 8). replace (c - c mod 8 + 2) with (8 * (c / 8) + 2) by lia.
  rewrite <- Z.lxor_lor, <- Z.add_nocarry_lxor; [reflexivity| |]; rewrite Z.mul_comm; change 8 with (2 ^ 3); rewrite <- Z.shiftl_mul_pow2 by lia; apply Z.bits_inj'; intros n Hn; rewrite Z.land_spec, Z.bits_0;
    (destruct (Z.ltb_spec n 3); [rewrite Z.shiftl_spec_low by lia; reflexivity|]; rewrite (Z.bits_above_log2 2) by (cbn; lia); apply andb_false_r).
Qed.
(** the configured replacement of a code; Go maps have one value for a key *)
Definition configured (m : option rcmap) (c v : Z) : Prop := match m with Some l => In (c, v) l /\ NoDup (map fst l) | None => False end.
Definition unconfigured (m : option rcmap) (c : Z) : Prop := match m with Some l => forall v, ~ In (c, v) l | None => True end.
Lemma rc_get_in l c v : In (c, v) l -> NoDup (map fst l) -> rc_get l c = v.
Proof.
  unfold rc_get. induction l as [|[a b] l IH]; intros H N; [easy|]. cbn in *. inversion N as [|? ? N1 N2]; subst. destruct (Z.eqb_spec a c) as [->|D].
  - destruct H as [H|H]; [injection H as <-; reflexivity|]. elim N1. apply in_map_iff. now exists (c, v).
  - destruct H as [H|H]; [congruence|]. now apply IH.
Qed.
Lemma rc_get_not l c : (forall v, ~ In (c, v) l) -> rc_get l c = 0.
Proof.
  unfold rc_get. induction l as [|[a b] l IH]; intros H; [reflexivity|]. cbn. destruct (Z.eqb_spec a c) as [->|D]; [elim (H b); now left|]. apply IH. intros v Q. apply (H v). now right.
Qed.
(** C44. Codes that are not internal are sent as they are; internal codes become what the map says, or else the
    same code with the kind Fatal; what is sent is never internal. Missing: a replacement by 0, see below. *)
Theorem C44_codes_partial : forall m c, new_server_ok m = true ->
  (~ is_internal c -> wire_code m c = c) /\
  (is_internal c -> unconfigured m c -> wire_code m c = c - 3 + 2) /\
  (forall v, is_internal c -> configured m c v -> v <> 0 -> wire_code m c = v) /\
  ~ is_internal (wire_code m c).
Proof.
  intros m c V. unfold is_internal, wire_code. rewrite kind_mod. unfold RcInternal.
  assert (FT : c mod 8 = 3 -> (c - 3 + 2) mod 8 <> 3) by (intro E; replace (c - 3 + 2) with (c + (-1)) by lia; rewrite Z.add_mod, E by lia; discriminate).
  split; [intro N; apply Z.eqb_neq in N; now rewrite N|]. split; [|split].
  - intros E U. rewrite (proj2 (Z.eqb_eq _ _) E). assert (match m with Some m0 => rc_get m0 c | None => 0 end = 0) as -> by (destruct m; [now apply rc_get_not|reflexivity]). cbn. rewrite to_fatal, E. reflexivity.
  - intros v E C N. rewrite (proj2 (Z.eqb_eq _ _) E). destruct m as [l|]; [|elim C]. destruct C as [C D]. rewrite (rc_get_in _ _ _ C D). apply Z.eqb_neq in N. now rewrite N.
  - destruct (Z.eqb_spec (c mod 8) 3) as [E|N]; [|exact N]. destruct m as [l|].
    + destruct (Z.eqb_spec (rc_get l c) 0) as [->|N]; cbn [negb Z.eqb]; [rewrite to_fatal, E; now apply FT|].
      unfold rc_get in *. destruct (find _ l) as [[a b]|] eqn:F; [|now elim N]. apply find_some in F. destruct F as [F _]. cbn in V. rewrite forallb_forall in V. apply V in F. cbn [fst snd] in *.
      apply andb_true_iff in F. destruct F as [_ F]. rewrite kind_mod in F. unfold RcInternal in F. rewrite negb_true_iff in F. now apply Z.eqb_neq in F.
    + cbn [negb Z.eqb]. rewrite to_fatal, E. now apply FT.
Qed.
(** every response that is written carries such a code: C44 holds on the wire, for every schedule *)
Theorem C44_nothing_internal_is_written : forall m es t s x, new_server_ok m = true -> run (s_init m) es = (t, Some s) -> In x (writes t) -> ~ is_internal (res_code x).
Proof.
  intros m es t s x V E H. apply run_reach in E. destruct (QI_reach _ _ _ E) as [lost Q]. destruct (for_request x) eqn:F.
  - assert (A : In x (answers t)) by (rewrite (qi_ans _ _ _ Q); apply in_or_app; left; apply filter_In; split; [apply in_or_app; now left|exact F]).
    assert (M : In x (map (response_of m (idOf s)) (comps t))) by (rewrite <- (ri_perm _ _ _ (RI_reach _ _ _ E)); apply in_or_app; now left).
    apply in_map_iff in M. destruct M as ([[r c] b] & <- & _). cbn. now apply C44_codes_partial.
  - assert (A : In x (pongs t)) by (rewrite (qi_pong _ _ _ Q); apply filter_In; split; [apply in_or_app; now left|unfold for_ping; now rewrite F]).
    assert (M : In x (map pong_of (pings t))) by (rewrite (qi_pings _ _ _ Q); apply in_or_app; now left). apply in_map_iff in M. destruct M as (i & <- & _). discriminate.
Qed.
Print Assumptions C44_codes_partial.
Print Assumptions C44_nothing_internal_is_written.
(** A replacement by 0, the code of success, is accepted by NewServer and ignored. *)
Theorem C44_zero_replacement_refuted : exists m c, new_server_ok m = true /\ is_internal c /\ configured m c 0 /\ wire_code m c <> 0.
Proof. exists (Some [(RcCanceled, 0)]), RcCanceled. split; [reflexivity|]. split; [reflexivity|]. split; [split; [now left|repeat constructor; easy]|]. vm_compute. discriminate. Qed.
Print Assumptions C44_zero_replacement_refuted.
Example C44_ex_map : new_server_ok (Some [(RcCanceled, 0x1234)]) = true /\ wire_code (Some [(RcCanceled, 0x1234)]) RcCanceled = 0x1234 /\ wire_code None RcCanceled = 0xff02 /\ wire_code None 0x202 = 0x202.
Proof. vm_compute. repeat split. Qed.
Example C44_ex_bad_map : new_server_ok (Some [(2, 0x1234)]) = false /\ new_server_ok (Some [(RcCanceled, 0x1233)]) = false.
Proof. vm_compute. now split. Qed.

(** ** C45 *)
Lemma nodup_app_l {A} (a b : list A) : NoDup (a ++ b) -> NoDup a.
Proof. induction a as [|x a IH]; cbn; intro N; [constructor|]. inversion N as [|? ? N1 N2]; subst. constructor; [|now apply IH]. intro H. apply N1. apply in_or_app. now left. Qed.
Lemma nodup_distinct t : NoDup (map snd (reqs t)) -> distinct_ids t.
Proof.
  intros N p r id q -> r' H. exfalso. rewrite reqs_app, map_app in N. cbn [reqs flat_map] in N. change (map snd ([(r, id)] ++ flat_map _ q)) with (id :: map snd (reqs q)) in N.
  apply NoDup_remove_2 in N. apply N. apply in_or_app. left. apply in_map_iff. now exists (r', id).
Qed.
Lemma few_ok t : (length (reqs t) + length (pings t) <= 128)%nat -> at_most_128 t.
Proof. intros H p q ->. rewrite reqs_app, pings_app, !app_length in H. lia. Qed.
Fixpoint nodupb (l : list Z) : bool := match l with [] => true | x :: l => negb (existsb (Z.eqb x) l) && nodupb l end.
Lemma nodupb_ok l : nodupb l = true -> NoDup l.
Proof.
  induction l as [|x l IH]; cbn; intro H; [constructor|]. apply andb_true_iff in H. destruct H as [H1 H2]. constructor; [|now apply IH].
  intro Q. apply negb_true_iff in H1. assert (existsb (Z.eqb x) l = true); [|congruence]. apply existsb_exists. exists x. split; [exact Q|apply Z.eqb_refl].
Qed.
Definition prefix {A} (a b : list A) : Prop := exists c, b = a ++ c.
(** C45, safety. In every schedule: the responses written are the responses of requests read and completed, with
    the id read and the code and body completed; no request is answered twice; they are written in the order in
    which Respond accepted them. Pings are answered in order, with their id. *)
Theorem C45_each_at_most_once : forall m es t s, run (s_init m) es = (t, Some s) ->
  prefix (filter for_request (writes t)) (answers t) /\
  NoDup (map res_req (answers t)) /\
  (forall x, In x (answers t) -> exists r id code body, res_req x = Some r /\ res_id x = id /\ res_code x = wire_code m code /\ res_body x = body /\ In (r, id) (reqs t) /\ In (r, code, body) (comps t)) /\
  prefix (filter for_ping (writes t)) (map pong_of (pings t)).
Proof.
  intros m es t s E. apply run_reach in E. destruct (QI_reach _ _ _ E) as [lost Q]. pose proof (RI_reach _ _ _ E) as R. unfold queue in *. split; [|split; [|split]].
  - rewrite (qi_ans _ _ _ Q). unfold queue. rewrite filter_app, <- app_assoc. eexists; reflexivity.
  - pose proof (rids_nodup _ _ _ R) as N. rewrite map_app in N. now apply nodup_app_l in N.
  - intros x A. assert (M : In x (map (response_of m (idOf s)) (comps t))) by (rewrite <- (ri_perm _ _ _ R); apply in_or_app; now left).
    apply in_map_iff in M. destruct M as ([[r c] b] & <- & M). exists r, (idOf s r), c, b. cbn. repeat (split; [reflexivity|]). split; [|exact M]. apply R. split; [|reflexivity].
    apply (ri_lt _ _ _ R). apply R. apply in_map_iff. now exists (r, c, b).
  - rewrite (qi_pings _ _ _ Q), (qi_pong _ _ _ Q). unfold queue. rewrite filter_app, <- app_assoc. eexists; reflexivity.
Qed.
(** C45, completeness. If the client does not reuse ids in flight, nothing is dropped before the connection is
    closed, and whenever the goroutines have nothing left to do, the connection is up and was never asked to queue
    more than it can, everything completed has been written. *)
Theorem C45_nothing_is_lost_partial : forall m es t s, run (s_init m) es = (t, Some s) -> distinct_ids t ->
  (~ In OClosed t -> drops t = []) /\
  (stuck s -> at_most_128 t -> ~ In OClosed t -> filter for_request (writes t) = answers t /\ filter for_ping (writes t) = map pong_of (pings t) /\
     forall r code body, In (r, code, body) (comps t) -> exists id, In (r, id) (reqs t) /\ In (mkRes id (wire_code m code) body (Some r)) (writes t)).
Proof.
  intros m es t s E Di. apply run_reach in E. destruct (QI_reach _ _ _ E) as [lost Q]. pose proof (RI_reach _ _ _ E) as R. pose proof (DI_reach _ _ _ E) as D.
  assert (ND : ~ In OClosed t -> drops t = []) by (intro N; apply (di_drop _ _ D Di); intro K; apply N; now apply D).
  split; [exact ND|]. intros S A N. destruct (stuck_cases _ _ _ E S) as [(_ & _ & K & _)|[(K & W & O & WT & B & RP)|(F & _ & J)]].
  - elim N. now apply D.
  - assert (lost = []) as -> by (destruct lost; [reflexivity|]; destruct (qi_lost _ _ _ Q); congruence).
    assert (KR : kresp s = []) by (unfold kresp; now rewrite K).
    pose proof (qi_ans _ _ _ Q) as QA. pose proof (qi_pong _ _ _ Q) as QP. pose proof (qi_pings _ _ _ Q) as QI. unfold queue, cur, blkl in *. rewrite W, O, B in *. cbn [app] in *. rewrite app_nil_r in *.
    split; [now symmetry; rewrite QA, app_nil_r|]. split.
    + rewrite QI, QP. destruct RP as [[P _]|[P _]]; rewrite P; now rewrite app_nil_r.
    + intros r code body H. exists (idOf s r). assert (LT : (r < nreq s)%nat) by (apply (ri_lt _ _ _ R); apply R; apply in_map_iff; now exists (r, code, body)).
      split; [apply R; now split|]. pose proof (all_answered _ _ _ E WT KR) as P. rewrite (ND N), app_nil_r in P.
      assert (In (response_of m (idOf s) (r, code, body)) (answers t)) as X by (rewrite P; now apply in_map). rewrite QA, app_nil_r in X. apply filter_In in X. exact (proj1 X).
  - destruct (room _ _ _ E A F) as (B & _ & _ & P). destruct J as [J|[id J]]; [congruence|]. now apply P in J.
Qed.
(** nothing else happens by itself: the goroutines reach such a state after finitely many steps, however scheduled *)
Theorem C45_answering_terminates : forall m es t s, run (s_init m) es = (t, Some s) -> exists bound, forall es', effective s es' -> (length es' <= bound)%nat.
Proof. intros m es t s E. apply run_reach in E. exists (work s). intros es' H. now apply (terminates m s t). Qed.
Print Assumptions C45_each_at_most_once.
Print Assumptions C45_nothing_is_lost_partial.
Print Assumptions C45_answering_terminates.

Ltac stuck_now := let e := fresh in let He := fresh in intros e He; destruct e as [?|?| |? ? ?| | | | |n|]; try (now elim He); try reflexivity; destruct n; reflexivity.
(** With an id in flight used again: the second request does not replace the first. The completion of the first is
    sent as the answer, and that of the second is lost. *)
Definition dup_run : list ev := [NetReq 7; Reader; NetReq 7; Reader; Complete 0%nat 0 [1]; Responder 0%nat; Complete 1%nat 0 [2]; Responder 0%nat; Writer; Writer; Writer; Writer; Writer].
Theorem C45_reused_id_refuted : exists m t s, run (s_init m) dup_run = (t, Some s) /\ stuck s /\ reqs t = [(0%nat, 7); (1%nat, 7)] /\ comps t = [(0%nat, 0, [1]); (1%nat, 0, [2])] /\ writes t = [mkRes 7 0 [1] (Some 0%nat)] /\ ~ In OClosed t /\ ~ In OWriteErr t.
Proof.
  exists None. eexists. eexists. split; [vm_compute; reflexivity|]. split; [|repeat split; try reflexivity; cbn; intuition discriminate].
  stuck_now.
Qed.
Print Assumptions C45_reused_id_refuted.
Definition ex45 : list ev := [NetReq 7; Reader; NetPing 9; Reader; NetReq 8; Reader; Complete 1%nat 0x202 [2]; Complete 0%nat 0 [1]; Responder 0%nat; Responder 0%nat; Writer; Writer; Writer; Writer; Writer; Writer; Writer; Writer; Writer].
Example C45_ex_run : exists t s, run (s_init None) ex45 = (t, Some s) /\ stuck s /\ distinct_ids t /\ at_most_128 t /\ ~ In OClosed t /\ writes t = [pong_of 9; mkRes 8 0x202 [2] (Some 1%nat); mkRes 7 0 [1] (Some 0%nat)].
Proof.
  eexists. eexists. split; [vm_compute; reflexivity|]. split; [stuck_now|].
  split; [|split; [|split; [cbn; intuition discriminate|reflexivity]]].
  - apply nodup_distinct, nodupb_ok. reflexivity.
  - apply few_ok. cbn. lia.
Qed.

(** ** C46 *)
(** C46, half of it: a server connection never sends on the closed channel. The only panic is the second close of
    [out], in the control loop, and it needs one schedule: the control loop handles the end of reading after the
    write loop has found the queue empty and before the write loop takes the lock. *)
Fixpoint raced (s : st) (es : list ev) : Prop :=
  match es with
  | [] => False
  | e :: es => race s e \/ match step s e with (_, Some s') => raced s' es | _ => False end
  end.
Lemma no_crash m es : forall s t, reach m s t -> NR s -> ~ raced s es -> snd (run s es) <> None.
Proof.
  induction es as [|e es IH]; intros s t R N H; cbn [run]; [discriminate|]. cbn in H. pose proof (SI_reach _ _ _ R) as I. destruct (step s e) as [o [s'|]] eqn:S.
  - specialize (IH s' (t ++ o) (reachS _ _ _ _ _ _ R S)). destruct (run s' es) as [o' r] eqn:E. cbn in *. apply IH; [|tauto]. apply (NR_eff s e o); try assumption; [now apply step_eff|tauto].
  - destruct (crash_only _ _ _ I S) as (_ & _ & _ & C & l & Q). destruct (N C) as [NE _]. elim NE. rewrite Q. now left.
Qed.
Theorem C46_only_a_double_close : forall m es t, run (s_init m) es = (t, None) -> exists p, t = p ++ [OPanic CloseOfClosed] /\ forall c, ~ In (OPanic c) p.
Proof.
  intros m es t E. destruct (run_crash _ _ _ E) as (s1 & t1 & e & o & R & S & ->). pose proof (SI_reach _ _ _ R) as I. destruct (crash_only _ _ _ I S) as (-> & _). exists t1. split; [reflexivity|].
  clear - R. revert s1 t1 R. apply (reach_ind_eff m (fun s t => forall c, ~ In (OPanic c) t)); [easy|]. intros s t e o s' I R IH H c Q. apply in_app_or in Q. destruct Q as [Q|Q]; [now apply IH in Q|]. destruct H; cbn in Q; intuition discriminate.
Qed.
Theorem C46_no_panic_partial : forall m es, ~ raced (s_init m) es -> exists t s, run (s_init m) es = (t, Some s).
Proof.
  intros m es H. destruct (run (s_init m) es) as [t [s|]] eqn:E; [now exists t, s|]. exfalso. apply (no_crash m es (s_init m) []) in H; [|constructor|easy]. rewrite E in H. now apply H.
Qed.
(** C46, termination: after the peer has closed and every request dispatched has been completed, the goroutines end,
    provided the queue was never asked for more than its capacity. *)
Theorem C46_close_terminates_partial : forall m es t s, run (s_init m) es = (t, Some s) -> In NetClose es -> at_most_128 t ->
  (forall r, In r (sends t) -> In r (map (fun c => fst (fst c)) (comps t))) ->
  (exists bound, forall es', effective s es' -> (length es' <= bound)%nat) /\
  (stuck s -> rp s = RDone /\ wp s = WDone /\ kp s = KDone /\ waits s = [] /\ In OClosed t).
Proof.
  intros m es t s E NC A C. pose proof (eof_run es _ _ _ E (SI_init m) (or_intror NC)) as Ef. apply run_reach in E. split; [exists (work s); intros es' H; now apply (terminates m s t)|].
  intro S. destruct (stuck_cases _ _ _ E S) as [(P & W & K & WT & B)|[(K & W & O & WT & B & RP)|(F & _ & J)]].
  - repeat (split; [assumption|]). now apply (DI_reach _ _ _ E).
  - exfalso. destruct RP as [[_ Q]|[P IF]]; [congruence|]. destruct (inFly s) as [|[id r] l] eqn:L; [now elim IF|].
    destruct (fly_open m s t id r E WT) as [Hs Hc]; [unfold kresp; now rewrite K|rewrite L; now left|]. apply C in Hs. apply (ri_comp _ _ _ (RI_reach _ _ _ E)) in Hs. congruence.
  - exfalso. destruct (room _ _ _ E A F) as (B & _ & _ & P). destruct J as [J|[id J]]; [congruence|]. now apply P in J.
Qed.
Print Assumptions C46_only_a_double_close.
Print Assumptions C46_no_panic_partial.
Print Assumptions C46_close_terminates_partial.
(** The race happens on a connection on which nothing goes wrong: the client connects and closes. *)
Theorem C46_double_close_refuted : exists es t, run (s_init None) es = (t, None) /\ ~ In WriteFail es /\ t = [OPanic CloseOfClosed].
Proof.
  exists [Writer; NetClose; Reader; Reader; Control; Control; Writer; Writer; Control]. eexists. split; [vm_compute; reflexivity|]. split; [cbn; intuition discriminate|reflexivity].
Qed.
Print Assumptions C46_double_close_refuted.
Fixpoint racedb (s : st) (es : list ev) : bool :=
  match es with
  | [] => false
  | e :: es => match e, kp s, wp s with Control, KRead, WDef => true | _, _, _ => false end || match step s e with (_, Some s') => racedb s' es | _ => false end
  end.
Lemma racedb_ok es : forall s, racedb s es = false -> ~ raced s es.
Proof.
  induction es as [|e es IH]; intros s H Q; [exact Q|]. cbn in H, Q. apply orb_false_iff in H. destruct H as [H1 H2]. destruct Q as [(-> & Q1 & Q2)|Q]; [rewrite Q1, Q2 in H1; discriminate|].
  destruct (step s e) as [? [s'|]]; [|exact Q]. now apply (IH s').
Qed.
(** the same events in another order: the connection ends in peace *)
Definition ex46 : list ev := [NetReq 7; Reader; Complete 0%nat 0 [1]; Responder 0%nat; NetClose; Reader; Reader; Writer; Writer; Writer; Writer; Control; Control; Writer; Writer; Writer; Writer; Control; Control; Control; Control; Control].
Example C46_ex_run : exists t s, run (s_init None) ex46 = (t, Some s) /\ ~ raced (s_init None) ex46 /\ stuck s /\ rp s = RDone /\ wp s = WDone /\ kp s = KDone /\ writes t = [mkRes 7 0 [1] (Some 0%nat)].
Proof.
  eexists. eexists. split; [vm_compute; reflexivity|]. split; [|split; [stuck_now|repeat split; reflexivity]].
  apply racedb_ok. vm_compute. reflexivity.
Qed.

(** ** C47 *)
(** C47. After a write error, when the goroutines have nothing left to do and the queue was never asked for more
    than its capacity: all of them have ended, and every request that was dispatched before the error has completed,
    those that the handlers did not complete with RcCanceled. *)
Theorem C47_write_failure_cancels_partial : forall m es t s, run (s_init m) es = (t, Some s) -> In OWriteErr t -> at_most_128 t -> distinct_ids t ->
  (exists bound, forall es', effective s es' -> (length es' <= bound)%nat) /\
  (stuck s -> rp s = RDone /\ wp s = WDone /\ kp s = KDone /\ In OClosed t /\
     forall p q r, t = p ++ OWriteErr :: q -> In r (sends p) -> exists code body, In (r, code, body) (comps t)).
Proof.
  intros m es t s E WE A Di. apply run_reach in E. split; [exists (work s); intros es' H; now apply (terminates m s t)|]. intro S. pose proof (write_error_seen _ _ _ E WE) as WW.
  destruct (stuck_cases _ _ _ E S) as [(P & W & K & WT & B)|[(K & W & _)|(F & _ & J)]].
  - assert (C : In OClosed t) by now apply (DI_reach _ _ _ E). repeat (split; [assumption|]). intros p q r T H.
    assert (Q : comp s r = true) by (apply (closed_canceled m s t); try assumption; now exists p, q). apply (ri_comp _ _ _ (RI_reach _ _ _ E)) in Q. apply in_map_iff in Q. destruct Q as ([[r' c] b] & <- & Q). now exists c, b.
  - exfalso. destruct WW; congruence.
  - exfalso. destruct (room _ _ _ E A F) as (B & _ & _ & P). destruct J as [J|[id J]]; [congruence|]. now apply P in J.
Qed.
Print Assumptions C47_write_failure_cancels_partial.
Fixpoint reqs_ev (n : nat) : list ev := match n with O => [] | S n => reqs_ev n ++ [NetReq (Z.of_nat n); Reader] end.
Definition fail_ev : list ev := [Writer; Writer; WriteFail; Writer; Control].
Definition cancel_ev (n : nat) : list ev := flat_map (fun _ => [Control]) (seq 0 n).
(** With more requests in flight than the queue holds, a write error leaves the control loop blocked for ever in its
    own queue: here 130 requests are in flight when the error occurs, the last one is never canceled, and whatever
    the network, the handlers and the goroutines do, the connection never ends. *)
Theorem C47_over_capacity_refuted : exists es t s, run (s_init None) es = (t, Some s) /\ In OWriteErr t /\ distinct_ids t /\
  In 129%nat (sends t) /\ ~ In 129%nat (map (fun c => fst (fst c)) (comps t)) /\
  forall es' o s', run s es' = (o, Some s') -> ~ In OClosed (t ++ o) /\ exists l, kp s' = KBlock l.
Proof.
  exists (reqs_ev 130 ++ fail_ev ++ cancel_ev 260).
  assert (V : match run (s_init None) (reqs_ev 130 ++ fail_ev ++ cancel_ev 260) with
    | (t, Some s) => nodupb (map snd (reqs t)) = true /\ existsb (fun o => match o with OWriteErr => true | _ => false end) t = true /\ existsb (Nat.eqb 129) (sends t) = true /\
        existsb (Nat.eqb 129) (map (fun c => fst (fst c)) (comps t)) = false /\ existsb (fun o => match o with OClosed => true | _ => false end) t = false /\
        match blk s with Some (_, true) => True | _ => False end /\ out_full s = true /\ wp s = WDone
    | _ => False end) by (vm_compute; repeat split).
  destruct (run (s_init None) _) as [t [s|]] eqn:E; [|elim V]. exists t, s. destruct V as (V1 & V2 & V3 & V4 & V5 & V6 & V7 & V8). apply run_reach in E.
  split; [reflexivity|]. split; [apply existsb_exists in V2; destruct V2 as ([] & V2 & Q); try discriminate; exact V2|].
  split; [now apply nodup_distinct, nodupb_ok|]. split; [apply existsb_exists in V3; destruct V3 as (x & V3 & Q); apply Nat.eqb_eq in Q; now subst x|].
  split; [intro Q; assert (existsb (Nat.eqb 129) (map (fun c => fst (fst c)) (comps t)) = true); [|congruence]; apply existsb_exists; exists 129%nat; split; [exact Q|reflexivity]|].
  intros es' o s' R. destruct (blk s) as [[x [|]]|] eqn:B; try (now elim V6).
  destruct (jam_run None es' s t x true o s' E (conj B (conj V7 (or_intror V8))) R) as (J & _ & _ & C). split.
  - rewrite in_app_iff. intros [Q|Q]; [|now apply C in Q]. assert (existsb (fun o => match o with OClosed => true | _ => false end) t = true); [|congruence]. apply existsb_exists. now exists OClosed.
  - assert (R' : reach None s' (t ++ o)) by now apply (run_reach_gen None es' s t E). pose proof (si_k2 _ (SI_reach _ _ _ R')) as K2. destruct J as (J & _). rewrite J in K2. destruct (kp s') as [| | |l|y l|l|]; try (now elim (K2 x)). now exists l.
Qed.
Print Assumptions C47_over_capacity_refuted.
Definition ex47 : list ev := [NetReq 7; Reader; NetReq 8; Reader; Complete 0%nat 0 [1]; Responder 0%nat; Writer; WriteFail; Writer; Control; Control; Control; Control; Control; Reader; Reader; Control; Control].
Example C47_ex_run : exists t s, run (s_init None) ex47 = (t, Some s) /\ In OWriteErr t /\ at_most_128 t /\ distinct_ids t /\ stuck s /\ comps t = [(0%nat, 0, [1]); (1%nat, RcCanceled, [])] /\ writes t = [].
Proof.
  eexists. eexists. split; [vm_compute; reflexivity|]. split; [cbn; tauto|]. split; [apply few_ok; cbn; lia|]. split; [apply nodup_distinct, nodupb_ok; reflexivity|]. split; [stuck_now|now split].
Qed.
(** A request that arrives between the write error and the end of reading is never canceled by the connection. *)
Theorem C47_late_request_refuted : exists es t s, run (s_init None) es = (t, Some s) /\ In OWriteErr t /\ at_most_128 t /\ distinct_ids t /\ stuck s /\ In OClosed t /\ sends t = [0%nat] /\ comps t = [].
Proof.
  exists [Writer; Writer; WriteFail; Writer; Control; Control; NetReq 7; Control; Reader; Reader; Reader; Control; Control]. eexists. eexists. split; [vm_compute; reflexivity|]. split; [cbn; tauto|]. split; [apply few_ok; cbn; lia|]. split; [apply nodup_distinct, nodupb_ok; reflexivity|].
  split; [stuck_now|]. split; [cbn; tauto|now split].
Qed.
Print Assumptions C47_late_request_refuted.

(** ** C71 *)
(** C71. While the client keeps at most 128 requests and pings unanswered on the wire, no goroutine ever waits for
    room in the queue: a completed request is answered as soon as its goroutine runs. *)
Theorem C71_no_wait_partial : forall m es t s, run (s_init m) es = (t, Some s) -> at_most_128 t ->
  blk s = None /\ (waits s <> [] -> out_full s = false) /\ (stuck s -> waits s = [] /\ (wp s = WRecv \/ wp s = WDone)).
Proof.
  intros m es t s E A. apply run_reach in E. split; [now apply (never_blocked m s t)|]. split.
  - intro W. destruct (out_full s) eqn:F; [|reflexivity]. destruct (room _ _ _ E A F) as (_ & Q & _). contradiction.
  - intro S. destruct (stuck_cases _ _ _ E S) as [(P & W & K & WT & B)|[(K & W & O & WT & _)|(F & _ & J)]]; [tauto|tauto|].
    exfalso. destruct (room _ _ _ E A F) as (B & _ & _ & P). destruct J as [J|[id J]]; [congruence|]. now apply P in J.
Qed.
Print Assumptions C71_no_wait_partial.
Definition burst_ev (n : nat) : list ev := flat_map (fun r => [Complete r 0 []; Responder 0%nat]) (seq 0 n).
(** With 129 requests in flight: the write loop finds its queue empty; before it takes the lock the 129 requests
    complete; the last of them waits for room in the queue with the lock held, and the write loop waits for the lock.
    Nothing is ever written again. No network error is involved. *)
Theorem C71_deadlock_refuted : exists es t s, run (s_init None) es = (t, Some s) /\ ~ In WriteFail es /\ ~ In NetClose es /\ distinct_ids t /\
  length (comps t) = 129%nat /\ writes t = [] /\
  forall es' o s', run s es' = (o, Some s') -> writes (t ++ o) = [] /\ answers o = [] /\ ~ In OWriteErr o.
Proof.
  exists (reqs_ev 129 ++ [Writer] ++ burst_ev 129).
  assert (V : match run (s_init None) (reqs_ev 129 ++ [Writer] ++ burst_ev 129) with
    | (t, Some s) => nodupb (map snd (reqs t)) = true /\ length (comps t) = 129%nat /\ writes t = [] /\ match blk s with Some (_, false) => True | _ => False end /\ out_full s = true /\ wp s = WDef
    | _ => False end) by (vm_compute; repeat split).
  assert (NE : forallb (fun e => match e with WriteFail | NetClose => false | _ => true end) (reqs_ev 129 ++ [Writer] ++ burst_ev 129) = true) by (vm_compute; reflexivity). pose proof (proj1 (forallb_forall _ _) NE) as NF. clear NE.
  destruct (run (s_init None) _) as [t [s|]] eqn:E; [|elim V]. exists t, s. destruct V as (V1 & V2 & V3 & V4 & V5 & V6). apply run_reach in E.
  split; [reflexivity|]. split; [intro Q; apply NF in Q; discriminate|]. split; [intro Q; apply NF in Q; discriminate|]. split; [now apply nodup_distinct, nodupb_ok|]. split; [exact V2|]. split; [exact V3|].
  intros es' o s' R. destruct (blk s) as [[x [|]]|] eqn:B; try (now elim V4). assert (J0 : jam s x false) by (split; [exact B|split; [exact V5|now left]]).
  destruct (jam_run None es' s t x false o s' E J0 R) as (J & W & An & _). rewrite writes_app, V3, W. split; [reflexivity|]. split; [exact An|].
  assert (G : forall es s t o s', reach None s t -> jam s x false -> wp s = WDef -> run s es = (o, Some s') -> ~ In OWriteErr o).
  { clear. induction es as [|e es IH]; intros s t o s' R J W E; cbn [run] in E; [injection E as <- <-; easy|]. destruct (step s e) as [o1 [s1|]] eqn:S1; [|discriminate]. destruct (run s1 es) as [o2 s2] eqn:R2. injection E as <- ->.
    pose proof (SI_reach _ _ _ R) as I. pose proof (step_eff _ _ _ _ I S1) as Ef. destruct (jam_eff _ _ _ _ _ _ I J Ef) as (J1 & _). assert (W1 : wp s1 = WDef /\ ~ In OWriteErr o1).
    { destruct J as (B & F & _). destruct Ef; fields; try (split; [assumption|cbn; intuition discriminate]); try congruence; try (destruct H; congruence). now rewrite W in H. }
    destruct W1 as [W1 N1]. intro Q. apply in_app_or in Q. destruct Q as [Q|Q]; [contradiction|]. now apply (IH s1 (t ++ o1) o2 s' (reachS _ _ _ _ _ _ R S1) J1 W1 R2) in Q. }
  now apply (G es' s t o s').
Qed.
Print Assumptions C71_deadlock_refuted.
(** The backlog behind the queue is never used: Respond waits for room in the queue instead of turning to it. *)
Theorem C71_backlog_unused : forall m es t s, run (s_init m) es = (t, Some s) -> buf s = [].
Proof. intros m es t s E. apply run_reach in E. exact (si_buf _ (SI_reach _ _ _ E)). Qed.
Print Assumptions C71_backlog_unused.
(** Were it used, the write loop would move it on correctly: every response once, in order, never beyond the capacity of
    the queue, and as many as there is room for. *)
Theorem C71_backlog_moves : forall s, (length (out s) <= 128)%nat ->
  out (clean_buffer s) ++ buf (clean_buffer s) = out s ++ buf s /\ (length (out (clean_buffer s)) <= 128)%nat /\
  (exists moved, out (clean_buffer s) = out s ++ moved) /\
  (buf (clean_buffer s) = [] \/ length (out (clean_buffer s)) = 128%nat).
Proof.
  intros s L. unfold clean_buffer, OutCap. set (n := Nat.min _ _). fields. repeat split.
  - now rewrite <- app_assoc, firstn_skipn.
  - rewrite app_length, firstn_length. lia.
  - eexists. reflexivity.
  - destruct (Nat.le_gt_cases (length (buf s)) (128 - length (out s))) as [G|G].
    + left. apply skipn_all2. lia.
    + right. rewrite app_length, firstn_length. lia.
Qed.
Print Assumptions C71_backlog_moves.
Example C71_backlog_example : let s := w_buf (w_out (s_init None) (repeat (mkRes 1 0 [] None) 127)) [mkRes 2 0 [] None; mkRes 3 0 [] None] in
  (length (out s) <= 128)%nat /\ last (out (clean_buffer s)) (mkRes 1 0 [] None) = mkRes 2 0 [] None /\ buf (clean_buffer s) = [mkRes 3 0 [] None].
Proof. cbv zeta. split; [cbn; lia|]. now vm_compute. Qed.
