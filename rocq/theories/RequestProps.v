(** Properties of the request life cycle (C27-C34, C67, C68).

    Every theorem is about [run react rid rmsg (init progs) sched]: one fresh request with identity
    (rid, rmsg); any number of goroutines executing any programs of calls on it; any interleaving
    [sched] of their atomic steps; any behaviour [react] of the bookmarks chained on it. *)
From Coq Require Import ZArith List Bool Arith Lia.
Import ListNotations.
From Verif Require Import RequestModel RequestSpec RequestProofs.
Open Scope Z_scope.

Definition trace (s : sys) : list ev := tr (sh s).

Lemma base react rid rmsg progs sched :
  J (F rid rmsg (concat progs)) (P rid rmsg (concat progs)) (R (concat progs)) (run react rid rmsg (init progs) sched).
Proof. apply inv_run. intros p Hp o Ho. apply in_concat. eauto. Qed.

(** C27: the Responder is invoked at most once. *)
Theorem C27_at_most_one_response : forall react rid rmsg progs sched,
  (count is_delivered (trace (run react rid rmsg (init progs) sched)) <= 1)%nat.
Proof. intros. apply (J_univ _ _ _ _ (base react rid rmsg progs sched)). Qed.
Print Assumptions C27_at_most_one_response.

(** C28: when a RespondFail call (Cancel, Expire, IOError, ShutDown) has returned, the Responder
    was invoked, unless a bookmark re-armed the request. *)
Theorem C28_failure_completes : forall react rid rmsg progs sched u th c r,
  let s := run react rid rmsg (init progs) sched in
  nth_error (ths s) u = Some th -> In (ORespondFail c, r) (dn th) ->
  count is_delivered (trace s) = 1%nat \/ exists e, In e (trace s) /\ is_reset e = true.
Proof.
  intros. pose proof (base react rid rmsg progs sched) as B. pose proof B as (_ & HR & _).
  destruct (HR _ _ H) as (_ & H1 & _). destruct (H1 _ _ H0) as [D|D].
  - left. pose proof (C27_at_most_one_response react rid rmsg progs sched). fold s in H2. unfold trace in *. unfold nd in D. fold s in D. lia.
  - right. apply count_in. exact D.
Qed.
Print Assumptions C28_failure_completes.
(** ... and calls do return: no reachable state is deadlocked, unless a bookmark panicked while the
    request's lock was held (a second Reset inside one notification). *)
Theorem C28_no_deadlock : forall react rid rmsg progs sched,
  let s := run react rid rmsg (init progs) sched in
  (exists u th, nth_error (ths s) u = Some th /\ tpc th = Panicked) \/
  (forall u th, nth_error (ths s) u = Some th -> tpc th = Idle /\ prog th = []) \/
  (exists u th, nth_error (ths s) u = Some th /\ tstep react rid rmsg (sh s) u th <> None).
Proof. intros. apply (progress _ _ _ _ _ (base react rid rmsg progs sched)). Qed.
Print Assumptions C28_no_deadlock.

(** C29: a delivered response has the identity of the request, and the code and body of one of the
    respond calls made; a body only from RespondBytes. *)
Theorem C29_responses_carry_identity : forall react rid rmsg progs sched i m c d,
  In (EvDelivered i m c d) (trace (run react rid rmsg (init progs) sched)) ->
  i = rid /\ m = rmsg /\
  exists p, In p progs /\
    match d with
    | Some body => In (ORespondBytes c body) p
    | None => In (ORespondFail c) p
    end.
Proof.
  intros. pose proof (J_univ _ _ _ _ (base react rid rmsg progs sched)) as (_ & G & _).
  apply in_split in H. destruct H as (a & b & E). unfold trace in E. rewrite E in G. apply good_app in G.
  simpl in G. destruct G as (_ & G1 & G2 & G3 & _). split; auto. split; auto.
  destruct d; apply in_concat in G3; destruct G3 as (p & A & B); eauto.
Qed.
Print Assumptions C29_responses_carry_identity.

(** C30: once performed, nothing changes: whatever runs later, the state stays, nothing is chained,
    notified, claimed or delivered, and every claim or chaining call that returns returns false. *)
Theorem C30_performed_is_inert : forall react rid rmsg progs sched sched',
  let s := run react rid rmsg (init progs) sched in
  let s' := run react rid rmsg s sched' in
  st (sh s) = RsPerformed ->
  st (sh s') = RsPerformed /\ trace s' = trace s /\
  forall u th th', nth_error (ths s) u = Some th -> nth_error (ths s') u = Some th' ->
    exists fresh, dn th' = fresh ++ dn th /\
      forall o, In (o, true) fresh -> exists c, (exists d, o = ORespondBytes c d) \/ o = ORespondFail c.
Proof.
  intros react rid rmsg progs sched sched' s s' ST.
  pose proof (base react rid rmsg progs sched) as B. fold s in B. clearbody s.
  assert (H : st (sh s') = 8 /\ trace s' = trace s /\
    forall u th th', nth_error (ths s) u = Some th -> nth_error (ths s') u = Some th' ->
    exists fresh, dn th' = fresh ++ dn th /\ forall o r, In (o, r) fresh -> r = true -> is_resp o = true).
  { subst s'. revert s B ST. induction sched' as [|t sched' IH]; intros s B ST.
    - simpl. split; auto. split; auto. intros. rewrite H in H0. inversion H0; subst. exists []. simpl. tauto.
    - simpl. assert (B' := J_step react rid rmsg _ _ _ (F_cas rid rmsg _) (fun s s' th => P_cas rid rmsg _ s s' th)
        (fun s t th s' th' => acq_ok react rid rmsg _ s t th s' th') (fun s t th s' th' => lock_ok react rid rmsg _ s t th s' th')
        (fun s t th s' th' => R_own react rid rmsg _ s t th s' th') (fun s t th s' th' th2 => R_other react rid rmsg _ s t th s' th' th2) s t B).
      destruct (nth_error (ths s) t) as [th|] eqn:N.
      2: { assert (E : step react rid rmsg s t = s) by (unfold step; rewrite N; auto). rewrite E. auto. }
      destruct (tstep react rid rmsg (sh s) t th) as [[h th']|] eqn:TS.
      2: { assert (E : step react rid rmsg s t = s) by (unfold step; rewrite N, TS; auto). rewrite E. auto. }
      assert (E : step react rid rmsg s t = mkSys h (upd (ths s) t th')) by (unfold step; rewrite N, TS; auto).
      destruct (inert_step _ _ _ _ _ _ _ _ _ B ST N TS) as (I1 & I2 & I3).
      rewrite E in *. destruct (IH _ B' I1) as (K1 & K2 & K3).
      split; auto. split. { rewrite K2. unfold trace; simpl; auto. }
      intros u x x' HX HX'.
      destruct (Nat.eq_dec u t) as [->|NE].
      + rewrite N in HX. inversion HX; subst x.
        destruct (K3 t th' x') as (fr & F1 & F2); auto. { simpl. eapply nth_upd_same; eauto. }
        destruct I3 as [I3|(o & r & I3 & I4)].
        * exists fr. rewrite F1, I3. auto.
        * exists (fr ++ [(o, r)]). rewrite F1, I3, <- app_assoc. split; auto.
          intros o' r' HI HT. apply in_app_or in HI. destruct HI as [HI|[HI|[]]]; [eapply F2; eauto|].
          inversion HI; subst. auto.
      + destruct (K3 u x x') as (fr & F1 & F2); eauto. simpl. rewrite nth_upd_other; auto. }
  destruct H as (H1 & H2 & H3). split; auto. split; auto.
  intros u th th' N N'. destruct (H3 u th th' N N') as (fr & E & G). exists fr. split; auto.
  intros o I. specialize (G _ _ I eq_refl). destruct o; try discriminate; eauto.
Qed.
Print Assumptions C30_performed_is_inert.

(** C31, pending: at most one SetPending (or SF claim) succeeds between re-arms to New. *)
Theorem C31_pending_exclusive : forall react rid rmsg progs sched newer u between v older,
  trace (run react rid rmsg (init progs) sched) = newer ++ EvPending u :: between ++ EvPending v :: older ->
  exists b, In (EvReset b false) between.
Proof.
  intros. pose proof (J_univ _ _ _ _ (base react rid rmsg progs sched)) as (_ & G & _).
  unfold trace in H. rewrite H in G. apply good_app in G. simpl in G. destruct G as [_ G].
  apply pend_open_split in G. apply count_in in G. destruct G as (e & I & E). destruct e as [| | | | |? [|]| | | | ]; try discriminate. eauto.
Qed.
Print Assumptions C31_pending_exclusive.

Lemma sum_zero f l : (forall x, In x l -> f x = 0) -> sum f l = 0.
Proof. induction l; simpl; auto. intros H. rewrite H, IHl; auto. Qed.
Lemma sum_split f g l : sum (fun th => f th + g th) l = sum f l + sum g l.
Proof. induction l; simpl; lia. Qed.

(** ... so the calls that returned true number at most one more than those re-arms. *)
Theorem C31_pending_results : forall react rid rmsg progs sched,
  let s := run react rid rmsg (init progs) sched in
  sum (results pend_true) (ths s) <= 1 + Z.of_nat (count is_reset_new (trace s)).
Proof.
  intros. pose proof (sum_mono react rid rmsg (fun th => results pend_true th + busy_with pend_true th)
    (fun l => - zc is_pending l) (pend_results_step react rid rmsg) sched (init progs)) as M.
  fold s in M. rewrite sum_split in M.
  rewrite (sum_zero _ (ths (init progs))) in M.
  2:{ intros x I. unfold init in I; simpl in I. apply in_map_iff in I. destruct I as (p & <- & _). reflexivity. }
  assert (0 <= sum (busy_with pend_true) (ths s)).
  { apply sum_nonneg. intros x. unfold busy_with. destruct (tpc x); try lia; destruct (pend_true _ _); lia. }
  change (tr (sh (init progs))) with (@nil ev) in M. unfold zc in M. simpl in M.
  pose proof (J_univ _ _ _ _ (base react rid rmsg progs sched)) as (_ & G & _). fold s in G.
  destruct (pend_count _ _ _ _ G) as [PC _]. unfold trace. lia.
Qed.
Print Assumptions C31_pending_results.

(** C31, in-flight claims: between two moments when the request becomes Pending a second successful
    SetInFly is only possible as SetInFly(bookmark) following SetInFly(nil).
    Missing: exclusivity against that pair; it is false, see the refutation below. *)
Theorem C31_inflight_exclusive_partial : forall react rid rmsg progs sched newer x between y older,
  trace (run react rid rmsg (init progs) sched) = newer ++ EvInFly x :: between ++ EvInFly y :: older ->
  (exists e, In e between /\ reopens e = true) \/
  (exists b, x = Some b /\ y = None \/ x = Some b /\ exists z, In (EvInFly z) between).
Proof.
  intros. pose proof (J_univ _ _ _ _ (base react rid rmsg progs sched)) as (_ & G & _).
  unfold trace in H. rewrite H in G. apply good_app in G. simpl in G. destruct G as [_ G].
  destruct (count reopens between) eqn:C; [|left; apply count_in; lia].
  right.
  assert (K : fly_last (between ++ EvInFly y :: older) = Some y \/ exists z, In (EvInFly z) between).
  { clear - C. induction between as [|e l IH]; simpl in *; auto.
    destruct e as [?|?|?| |? ?|? [|]|?|? ? ? ?|?| ]; simpl in *; try discriminate;
      try (right; eexists; eauto; fail); destruct (IH C) as [?|(z & ?)]; eauto. }
  destruct x as [b|].
  - exists b. destruct K as [K|K]; auto. rewrite K in G. left. destruct G as [G|G]; [discriminate|]. inversion G. auto.
  - destruct (fly_last_split between y older C) as [z Z]. rewrite Z in G. discriminate.
Qed.
Print Assumptions C31_inflight_exclusive_partial.

(** ... and nil claims alone are exclusive: the SetInFly(nil) calls that returned true number at most
    one more than the moments the request became Pending. *)
Theorem C31_nil_claims_partial : forall react rid rmsg progs sched,
  let s := run react rid rmsg (init progs) sched in
  sum (results nilfly_true) (ths s) <= 1 + Z.of_nat (count reopens (trace s)).
Proof.
  intros. pose proof (sum_mono react rid rmsg (fun th => results nilfly_true th + busy_with nilfly_true th)
    (fun l => - zc is_nilfly l) (nilfly_results_step react rid rmsg) sched (init progs)) as M.
  fold s in M. rewrite sum_split in M.
  rewrite (sum_zero _ (ths (init progs))) in M.
  2:{ intros x I. unfold init in I; simpl in I. apply in_map_iff in I. destruct I as (p & <- & _). reflexivity. }
  assert (0 <= sum (busy_with nilfly_true) (ths s)).
  { apply sum_nonneg. intros x. unfold busy_with. destruct (tpc x); try lia; destruct (nilfly_true _ _); lia. }
  change (tr (sh (init progs))) with (@nil ev) in M. unfold zc in M. simpl in M.
  pose proof (J_univ _ _ _ _ (base react rid rmsg progs sched)) as (_ & G & _). fold s in G.
  destruct (fly_count _ _ _ _ G) as [PC _]. unfold trace. lia.
Qed.
Print Assumptions C31_nil_claims_partial.

(** The race: SetInFly(bookmark) tests the state under the lock, SetInFly(nil) changes it without,
    then the plain store overwrites it. Both calls return true, nothing was re-armed. *)
Theorem C31_inflight_exclusive_refuted : exists progs sched,
  let s := run (fun _ _ => []) 1 1 (init progs) sched in
  map dn (ths s) = [[(OSetPending, true)]; [(OSetInFlyNil, true)]; [(OSetInFly 7, true)]] /\
  count is_reset (trace s) = 0%nat.
Proof.
  exists [[OSetPending]; [OSetInFlyNil]; [OSetInFly 7]], [0%nat; 2%nat; 2%nat; 2%nat; 1%nat; 2%nat; 2%nat; 2%nat].
  vm_compute. auto.
Qed.
Print Assumptions C31_inflight_exclusive_refuted.

(** C32: without re-arms, at delivery the notified bookmarks are exactly the chained ones, last
    chained first ([chained] lists newest first, [notified] too). *)
Theorem C32_bookmarks_reverse_order : forall react rid rmsg progs sched,
  let l := trace (run react rid rmsg (init progs) sched) in
  (exists e, In e l /\ is_delivered e = true) -> (forall e, In e l -> is_reset e = false) ->
  rev (notified l) = chained l.
Proof.
  intros. pose proof (J_univ _ _ _ _ (base react rid rmsg progs sched)) as (D & _ & G & _).
  assert (E : nd (sh (run react rid rmsg (init progs) sched)) = 1%nat).
  { apply count_in in H. unfold nd in *. subst l. unfold trace in H. lia. }
  destruct (G E) as (W & _). unfold Wc in W. rewrite app_nil_r in W. apply W.
  unfold nr. destruct (count is_reset _) eqn:X; auto. exfalso.
  assert (K : (1 <= count is_reset l)%nat) by (unfold l, trace; lia). apply count_in in K. destruct K as (e & I & K).
  rewrite (H0 e I) in K. discriminate.
Qed.
Print Assumptions C32_bookmarks_reverse_order.

(** ... with re-arms by others: a bookmark that never re-armed is never notified more often than it
    was chained, and exactly as often once the Responder was invoked. *)
Theorem C32_bookmark_notified_once : forall react rid rmsg progs sched b,
  let l := trace (run react rid rmsg (init progs) sched) in
  (forall e, In e l -> is_reset_by b e = false) ->
  (count (is_notify b) l <= count (is_chained b) l)%nat /\
  ((exists e, In e l /\ is_delivered e = true) -> count (is_notify b) l = count (is_chained b) l).
Proof.
  intros. pose proof (J_univ _ _ _ _ (base react rid rmsg progs sched)) as (D & _ & G & _ & K).
  assert (Z0 : count (is_reset_by b) l = 0%nat).
  { destruct (count (is_reset_by b) l) eqn:X; auto. exfalso.
    assert (Q : (1 <= count (is_reset_by b) l)%nat) by lia. apply count_in in Q. destruct Q as (e & I & Q).
    rewrite (H e I) in Q. discriminate. }
  split. { apply K. exact Z0. }
  intros I. apply count_in in I.
  assert (E : nd (sh (run react rid rmsg (init progs) sched)) = 1%nat).
  { unfold nd in *. subst l. unfold trace in I. lia. }
  destruct (G E) as (_ & A & _). specialize (A b Z0). simpl in A. unfold l, trace. lia.
Qed.
Print Assumptions C32_bookmark_notified_once.

(** ... and no bookmark is notified, chained, and no re-arm happens after the Responder was invoked. *)
Theorem C32_nothing_after_responder : forall react rid rmsg progs sched newer i m c d older e,
  trace (run react rid rmsg (init progs) sched) = newer ++ EvDelivered i m c d :: older ->
  In e newer ->
  match e with EvNotify _ _ | EvChained _ | EvReset _ _ | EvDelivered _ _ _ _ => False | _ => True end.
Proof.
  intros. pose proof (J_univ _ _ _ _ (base react rid rmsg progs sched)) as (_ & G & _).
  destruct (no_after _ _ _ _ G _ _ _ _ _ _ H _ H0) as (A & B & C & D).
  destruct e; auto; try discriminate.
  - specialize (D b). simpl in D. rewrite Nat.eqb_refl in D. discriminate.
  - specialize (C b). simpl in C. rewrite Nat.eqb_refl in C. discriminate.
Qed.
Print Assumptions C32_nothing_after_responder.

(** C33: a re-arm ends the running completion: before anything is delivered, notified or taken off
    the chain again, a new completion must have started. *)
Theorem C33_rearm_stops_completion : forall react rid rmsg progs sched newer e older,
  trace (run react rid rmsg (init progs) sched) = newer ++ e :: older ->
  match e with EvDelivered _ _ _ _ | EvNotify _ _ | EvUnchained _ => True | _ => False end ->
  exists since before, older = since ++ EvPrepared :: before /\ forall e', In e' since -> is_reset e' = false.
Proof.
  intros. pose proof (J_univ _ _ _ _ (base react rid rmsg progs sched)) as (_ & G & _).
  unfold trace in H. rewrite H in G. apply good_app in G. simpl in G. destruct G as [_ G].
  assert (A : armed older = true). { destruct e; try contradiction; try tauto. }
  destruct (armed_split _ A) as (x & y & -> & C). exists x, y. split; auto.
  intros e' I. destruct (is_reset e') eqn:E; auto. exfalso.
  assert (1 <= count is_reset x)%nat by (apply count_in; eauto). lia.
Qed.
Print Assumptions C33_rearm_stops_completion.

(** ... and the request can still be completed: in every reachable state in which nobody holds its
    lock and nothing was delivered, a failing call that is about to run completes it, notifying
    the whole remaining chain (here: bookmarks which do not re-arm again), exactly once. *)
Theorem C33_rearmed_can_complete : forall react rid rmsg progs sched u th c rest,
  let s := run react rid rmsg (init progs) sched in
  lk (sh s) = None -> count is_delivered (trace s) = 0%nat ->
  nth_error (ths s) u = Some th -> tpc th = Idle -> prog th = ORespondFail c :: rest ->
  (forall b x, In b (ch (sh s)) -> react b x = []) ->
  exists n, let s' := run react rid rmsg s (repeat u n) in
    st (sh s') = RsPerformed /\
    exists y, trace s' = EvDelivered rid rmsg c None :: y ++ trace s /\
      rev (notified y) = ch (sh s) /\ count is_delivered (trace s') = 1%nat.
Proof.
  intros react rid rmsg progs sched u th c rest s K D N PC PR HR.
  pose proof (base react rid rmsg progs sched) as (_ & _ & B). fold s in B. rewrite K in B.
  destruct B as ([(A & _)|(_ & A & _)] & _); [|unfold nd in A; unfold trace in D; congruence].
  destruct (solo_fail react rid rmsg s u th c rest N PC PR K A HR) as (n & H1 & _ & y & H2 & H3 & H4).
  exists n. cbv zeta. split; auto. exists y. unfold trace in *. rewrite H2. split; auto. split; auto.
  simpl. rewrite count_app. lia.
Qed.
Print Assumptions C33_rearmed_can_complete.

(** C34: shutdown and cancel share one code; all other pairs of causes differ. *)
Theorem C34_causes_distinguishable_refuted : RcShutdown = RcCanceled.
Proof. reflexivity. Qed.
Theorem C34_causes_distinguishable_partial :
  NoDup [RcCanceled; RcTimeout; RcIOError; RcProtocolError; RcInternalError] /\
  NoDup [RcShutdown; RcTimeout; RcIOError; RcProtocolError; RcInternalError].
Proof.
  split; repeat constructor; simpl; unfold RcCanceled, RcShutdown, RcTimeout, RcIOError, RcProtocolError, RcInternalError;
   intuition discriminate.
Qed.
Print Assumptions C34_causes_distinguishable_partial.

(** C67: an SF function is run at most once more often than the request was re-armed to New ... *)
Theorem C67_sf_at_most_once : forall react rid rmsg progs sched,
  let l := trace (run react rid rmsg (init progs) sched) in
  (count is_run l <= 1 + count is_reset_new l)%nat.
Proof.
  intros. set (s := run react rid rmsg (init progs) sched) in *.
  pose proof (sum_mono react rid rmsg is_sf2
    (fun l => zc is_run l - zc is_pending l) (run_step react rid rmsg) sched (init progs)) as M.
  fold s in M. rewrite (sum_zero _ (ths (init progs))) in M.
  2:{ intros x I. unfold init in I; simpl in I. apply in_map_iff in I. destruct I as (p & <- & _). reflexivity. }
  assert (0 <= sum is_sf2 (ths s)). { apply sum_nonneg. intros x. unfold is_sf2. destruct (tpc x); lia. }
  change (tr (sh (init progs))) with (@nil ev) in M. unfold zc in M. simpl in M.
  pose proof (J_univ _ _ _ _ (base react rid rmsg progs sched)) as (_ & G & _). fold s in G.
  destruct (pend_count _ _ _ _ G) as [PC _]. unfold l, trace. lia.
Qed.
Print Assumptions C67_sf_at_most_once.

(** ... and only by the goroutine whose claim succeeded: nobody else's did. *)
Lemma pend_unique rid rmsg ALL b u v : good rid rmsg ALL b -> count is_reset_new b = 0%nat ->
  In (EvPending u) b -> In (EvPending v) b -> u = v.
Proof.
  intros G C I1 I2. apply in_split in I1. destruct I1 as (x & y & ->).
  apply in_app_or in I2. destruct I2 as [I2|[I2|I2]].
  - apply in_split in I2. destruct I2 as (x1 & x2 & ->). rewrite <- app_assoc in G. apply good_app in G.
    simpl in G. destruct G as [_ G]. apply pend_open_split in G. rewrite !count_app in C. simpl in C. lia.
  - inversion I2; auto.
  - apply in_split in I2. destruct I2 as (x1 & x2 & ->). apply good_app in G. simpl in G. destruct G as [_ G].
    apply pend_open_split in G. rewrite !count_app in C. simpl in C. rewrite count_app in C. lia.
Qed.
Theorem C67_sf_only_claimer : forall react rid rmsg progs sched newer u older,
  trace (run react rid rmsg (init progs) sched) = newer ++ EvRun u :: older ->
  In (EvPending u) older /\
  ((forall e, In e older -> is_reset_new e = false) -> forall v, In (EvPending v) older -> v = u).
Proof.
  intros. pose proof (J_univ _ _ _ _ (base react rid rmsg progs sched)) as (_ & G & _).
  pose proof (run_tid react rid rmsg progs sched) as K. unfold trace in H. rewrite H in *.
  pose proof (run_ok_split react newer u older K) as I. split; auto. intros HN v IV.
  change (newer ++ EvRun u :: older) with (newer ++ [EvRun u] ++ older) in G. rewrite app_assoc in G. apply good_app in G.
  eapply pend_unique; eauto.
  destruct (count is_reset_new older) eqn:X; auto. exfalso.
  assert (Q : (1 <= count is_reset_new older)%nat) by lia. apply count_in in Q. destruct Q as (e & J & Q).
  rewrite (HN e J) in Q. discriminate.
Qed.
Print Assumptions C67_sf_only_claimer.

(** ... a Route function only ever gets a request nobody has claimed (since its last re-arm to New). *)
Theorem C67_route_only_new : forall react rid rmsg progs sched newer older u,
  trace (run react rid rmsg (init progs) sched) = newer ++ EvRouted :: older ->
  In (EvPending u) older -> exists b x y, older = x ++ EvReset b false :: y /\ forall v, ~ In (EvPending v) x.
Proof.
  intros. pose proof (J_univ _ _ _ _ (base react rid rmsg progs sched)) as (_ & G & _).
  unfold trace in H. rewrite H in G. apply good_app in G. simpl in G. destruct G as [_ G].
  clear - G H0. induction older as [|e l IH]; simpl in *; [contradiction|].
  destruct e as [?|?|?| |? ?|b [|]|?|? ? ? ?|?| ]; try discriminate;
    try (destruct H0 as [H0|H0]; [discriminate|]; destruct (IH H0 G) as (b' & x & y & -> & Q);
         eexists b', (_ :: x), y; split; [reflexivity|]; intros w [W|W]; [discriminate|eapply Q; eauto]).
  exists b, [], l. split; auto.
Qed.
Print Assumptions C67_route_only_new.

(** C68: the bookmark [b] of a StatService: chained by one Send, its Respond only records (it does
    nothing to the request). Its callback runs at most once; and if Send forwarded the request
    (ChainBookmark returned true, i.e. [b] was chained) exactly once when the Responder was invoked,
    with the other bookmarks behaving in any way. *)
Theorem C68_stat_callback_once : forall react rid rmsg progs sched b,
  let l := trace (run react rid rmsg (init progs) sched) in
  (forall x, react b x = []) -> uses b (concat progs) = 1 ->
  (count (is_notify b) l <= 1)%nat /\
  (In (EvChained b) l -> (exists e, In e l /\ is_delivered e = true) -> count (is_notify b) l = 1%nat) /\
  (~ In (EvChained b) l -> count (is_notify b) l = 0%nat).
Proof.
  intros react rid rmsg progs sched b l HR HU.
  pose proof (no_reset_by react rid rmsg b progs sched HR) as NR.
  assert (NR' : forall e, In e l -> is_reset_by b e = false).
  { intros e I. destruct (is_reset_by b e) eqn:E; auto. exfalso.
    assert (1 <= count (is_reset_by b) l)%nat by (apply count_in; eauto). unfold l, trace in *. lia. }
  destruct (C32_bookmark_notified_once react rid rmsg progs sched b NR') as [A B]. fold l in A, B.
  pose proof (sum_mono react rid rmsg (fun th => uses b (prog th) + pc_uses b (tpc th))
    (fun l => zc (is_chained b) l) (uses_step react rid rmsg b) sched (init progs)) as M.
  assert (M0 : sum (fun th => uses b (prog th) + pc_uses b (tpc th)) (ths (init progs)) = uses b (concat progs)).
  { clear. unfold init; simpl. induction progs as [|p ps IH]; simpl; auto. rewrite IH.
    clear IH. assert (forall a c, uses b (a ++ c) = uses b a + uses b c) as UA.
    { induction a as [|o a IHa]; intros c; simpl; auto. unfold uses in *. simpl. rewrite IHa. lia. }
    rewrite UA. simpl. lia. }
  rewrite M0, HU in M. change (tr (sh (init progs))) with (@nil ev) in M. unfold zc in M. simpl in M.
  assert (0 <= sum (fun th => uses b (prog th) + pc_uses b (tpc th)) (ths (run react rid rmsg (init progs) sched))).
  { apply sum_nonneg. intros x. 
    assert (0 <= uses b (prog x)).
    { clear. induction (prog x) as [|o p IH]; simpl; [lia|]. unfold uses in *; simpl. destruct o; simpl; try lia; destruct (Nat.eqb _ _); lia. }
    assert (0 <= pc_uses b (tpc x)) by (destruct (tpc x); simpl; try lia; destruct (Nat.eqb _ _); lia). lia. }
  assert (C : (count (is_chained b) l <= 1)%nat) by (unfold l, trace; lia).
  split; [lia|]. split.
  - intros I D. rewrite (B D). assert (1 <= count (is_chained b) l)%nat; [|lia].
    apply count_in. exists (EvChained b). simpl. rewrite Nat.eqb_refl. auto.
  - intros NI. destruct (count (is_chained b) l) eqn:X; [lia|]. exfalso.
    assert (Q : (1 <= count (is_chained b) l)%nat) by lia. apply count_in in Q. destruct Q as (e & I & Q).
    destruct e; try discriminate. simpl in Q. apply Nat.eqb_eq in Q. subst. auto.
Qed.
Print Assumptions C68_stat_callback_once.

(* ------------------------------------------------------------------------- *)
(** Concrete runs meeting the hypotheses. *)
Definition react_ctx (b : nat) (l : list ev) : list ract :=
  match l with EvNotify _ c :: _ => if Nat.eqb b 9 then reqcontext_react c else [] | _ => [] end.
(** a timeout is absorbed by the context bookmark 9 (re-arm), then a response is delivered;
    bookmark 5 is notified once *)
Definition ex_progs := [[OSetPending; OChainBookmark 5; OSetInFly 9]; [OExpire]; [ORespondBytes 0 [1;2]]; [OCancel; OSetPending]].
Definition ex_sched := repeat 0%nat 12 ++ repeat 1%nat 11 ++ repeat 2%nat 40 ++ repeat 3%nat 10.
Example ex_run : let s := run react_ctx 3 4 (init ex_progs) ex_sched in
  rev (trace s) = [EvPending 0; EvChained 5; EvInFly (Some 9%nat); EvChained 9; EvPrepared; EvNotify 9 RcTimeout;
     EvReset 9 true; EvInFly None; EvPrepared; EvNotify 9 0; EvUnchained 9; EvNotify 5 0; EvUnchained 5;
     EvDelivered 3 4 0 (Some [1;2])] /\
  map dn (ths s) = [[(OSetInFly 9, true); (OChainBookmark 5, true); (OSetPending, true)]; [(OExpire, true)];
     [(ORespondBytes 0 [1;2], true)]; [(OSetPending, false); (OCancel, false)]] /\
  st (sh s) = RsPerformed.
Proof. vm_compute. auto. Qed.
Example ex_c33 : let s := run react_ctx 3 4 (init [[OSetPending; OChainBookmark 5; OSetInFly 9]; [OExpire]; [OCancel]]) (repeat 0%nat 12 ++ repeat 1%nat 11) in
  lk (sh s) = None /\ count is_delivered (trace s) = 0%nat /\ count is_reset (trace s) = 1%nat /\
  ch (sh s) = [9%nat; 5%nat] /\ nth_error (ths s) 2 = Some (mkTh Idle [OCancel] [] OSetPending).
Proof. vm_compute. auto. Qed.
Example ex_lifo : let l := trace (run (fun _ _ => []) 3 4 (init [[OChainBookmark 1; OChainBookmark 2; OChainBookmark 3; OCancel]]) (repeat 0%nat 50)) in
  notified l = [1;2;3]%nat /\ count is_delivered l = 1%nat /\ count is_reset l = 0%nat.
Proof. vm_compute. auto. Qed.
Example ex_sf : let l := trace (run (fun _ _ => []) 3 4 (init [[OSF]; [OSF]; [ORoute; OSetPending]]) [2;0;1;0;2]%nat) in
  rev l = [EvRouted; EvPending 0; EvInFly None; EvRun 0].
Proof. vm_compute. auto. Qed.
Example ex_stat : uses 5 (concat ex_progs) = 1 /\ (forall x, react_ctx 5 x = []).
Proof. split; [reflexivity|]. intros [|[] ?]; reflexivity. Qed.
