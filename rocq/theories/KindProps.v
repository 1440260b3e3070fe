(** What Valid and Restartable say about a response (C148). *)
From Coq Require Import ZArith List Bool Lia.
Import ListNotations.
From Verif Require Import RequestModel RequestSpec RequestProofs RequestProps KindModel KindSpec.
From Verif Require WireModel WireSpec WireProps.
Open Scope Z_scope.

(** the kind of a code is in its three lowest bits; no response is both valid and restartable *)
Theorem C148_kinds : forall code, 0 <= code < 2 ^ 32 ->
  (Valid code = true <-> code mod 8 = 0) /\ (Restartable code = true <-> code mod 8 = 1) /\
  ~ (Valid code = true /\ Restartable code = true).
Proof.
  intros code _. unfold Valid, Restartable, RcKindMask, RcOK, RcTemporary.
  change 7 with (Z.ones 3). rewrite Z.land_ones by lia. change (2 ^ 3) with 8.
  rewrite !Z.eqb_eq. repeat split; intros; auto; lia.
Qed.
Print Assumptions C148_kinds.

Lemma codes : forall o c d, answers o c d -> giving_up o -> Valid c = false /\ Restartable c = false /\ d = None.
Proof.
  intros o c d A G. unfold answers in A. destruct d as [b|]; subst o.
  - destruct G as [G|[G|[G|[G|[]]]]]; discriminate.
  - destruct G as [G|[G|[G|[G|[]]]]]; injection G as G; subst c; repeat split.
Qed.

(** A response that is valid or restartable is somebody's answer: one of the goroutines made the call that
    gave it, and this was not one of the calls with which the library gives up. *)
Theorem C148_good_answers_are_answers : forall react rid rmsg progs sched i m c d,
  In (EvDelivered i m c d) (trace (run react rid rmsg (init progs) sched)) ->
  Valid c = true \/ Restartable c = true ->
  exists p o, In p progs /\ In o p /\ answers o c d /\ ~ giving_up o.
Proof.
  intros react rid rmsg progs sched i m c d H V.
  destruct (C29_responses_carry_identity _ _ _ _ _ _ _ _ _ H) as (_ & _ & p & P & Q).
  assert (X : exists o, In o p /\ answers o c d) by (unfold answers; destruct d; eauto).
  destruct X as (o & O & A). exists p, o. repeat (split; [assumption|]).
  intro G. destruct (codes o c d A G) as (V1 & V2 & _). destruct V; congruence.
Qed.
Print Assumptions C148_good_answers_are_answers.

(** When nobody answers, a response is neither valid nor restartable, and it has no body. *)
Theorem C148_giving_up_is_neither : forall react rid rmsg progs sched i m c d,
  Forall only_gives_up progs ->
  In (EvDelivered i m c d) (trace (run react rid rmsg (init progs) sched)) ->
  Valid c = false /\ Restartable c = false /\ d = None.
Proof.
  intros react rid rmsg progs sched i m c d F H.
  destruct (C29_responses_carry_identity _ _ _ _ _ _ _ _ _ H) as (_ & _ & p & P & Q).
  rewrite Forall_forall in F. specialize (F p P).
  destruct d as [b|].
  - destruct (F _ Q).
  - exact (codes (ORespondFail c) c None eq_refl (F _ Q)).
Qed.
Print Assumptions C148_giving_up_is_neither.

(** The code tells the cause of a failure: a timeout and a lost connection are recognised. Missing: Cancel and
    ShutDown, which have one code. *)
Theorem C148_code_tells_the_cause_partial : forall react rid rmsg progs sched i m c d,
  Forall only_gives_up progs ->
  In (EvDelivered i m c d) (trace (run react rid rmsg (init progs) sched)) ->
  (c = RcTimeout /\ exists p, In p progs /\ In OExpire p) \/
  (c = RcIOError /\ exists p, In p progs /\ In OIOError p) \/
  (c = RcCanceled /\ c <> RcTimeout /\ c <> RcIOError /\ exists p, In p progs /\ (In OCancel p \/ In OShutDown p)).
Proof.
  intros react rid rmsg progs sched i m c d F H.
  destruct (C29_responses_carry_identity _ _ _ _ _ _ _ _ _ H) as (_ & _ & p & P & Q).
  rewrite Forall_forall in F. specialize (F p P).
  destruct d as [b|]; [destruct (F _ Q)|].
  pose proof (F _ Q) as G. simpl in G.
  destruct G as [G|[G|[G|[G|[]]]]]; pose proof G as G'; injection G as G; subst c.
  - left. split; [reflexivity|]. exists p. auto.
  - right; right. repeat split; try discriminate. exists p. auto.
  - right; left. split; [reflexivity|]. exists p. auto.
  - right; right. repeat split; try discriminate. exists p. auto.
Qed.
Print Assumptions C148_code_tells_the_cause_partial.

(** A request that was cancelled and one that was refused at a shutdown give their Responder the same response. *)
Theorem C148_code_tells_the_cause_refuted : exists sched,
  (exists x, In x (trace (run (fun _ _ => []) 3 4 (init [[OCancel]]) sched)) /\ is_delivered x = true) /\
  trace (run (fun _ _ => []) 3 4 (init [[OCancel]]) sched) = trace (run (fun _ _ => []) 3 4 (init [[OShutDown]]) sched).
Proof.
  exists (repeat 0%nat 10). split; [|vm_compute; reflexivity].
  exists (EvDelivered 3 4 65283 None). split; [vm_compute; auto|reflexivity].
Qed.
Print Assumptions C148_code_tells_the_cause_refuted.

(** On a connection without return codes (RC0byte) every response is read as valid, whatever code the server gave it. *)
Theorem C148_no_code_reads_as_valid : forall ops, Forall (WireProps.response_call WireModel.RC0) ops ->
  exists w, WireModel.hw_run WireModel.RC0 (WireModel.w_init []) (ops ++ [WireModel.OpFlush]) = WireModel.WOk w /\
  forall script fuel, WireSpec.carries script (WireModel.w_out w) -> (length (WireSpec.responses_of ops) < fuel)%nat ->
    let got := fst (WireSpec.read_responses WireModel.RC0 fuel (WireModel.r_init script)) in
    length got = length (WireSpec.responses_of ops) /\ Forall (fun p => Valid (WireModel.p_code p) = true) got.
Proof.
  intros ops F. destruct (WireProps.C03_response_stream_roundtrip_rc0 ops F) as (w & E & K).
  exists w. split; [exact E|]. intros script fuel C L. cbv zeta. rewrite (K script fuel C L). simpl.
  split; [apply map_length|]. apply Forall_forall. intros p H. apply in_map_iff in H. destruct H as (q & <- & _). reflexivity.
Qed.
Print Assumptions C148_no_code_reads_as_valid.

(** a request answered by a handler (RequestProps.ex_run), and one that is cancelled and then runs out of time *)
Example C148_answered : let l := trace (run react_ctx 3 4 (init ex_progs) ex_sched) in
  In (EvDelivered 3 4 0 (Some [1;2])) l /\ Valid 0 = true /\ Restartable 0 = false.
Proof. vm_compute. auto 20. Qed.
Example C148_given_up : let progs := [[OSetPending; OExpire]; [OCancel; OIOError]] in
  let l := trace (run (fun _ _ => []) 3 4 (init progs) (repeat 0%nat 2 ++ repeat 1%nat 20 ++ repeat 0%nat 20)) in
  Forall only_gives_up progs /\ In (EvDelivered 3 4 65283 None) l.
Proof.
  split; [|vm_compute; auto 20].
  repeat constructor; intros o H; simpl in H; destruct H as [<-|[<-|[]]]; simpl; unfold giving_up; simpl; auto.
Qed.
(** a server says "temporary" and "fatal", and the client, set to read no codes, sees two valid responses *)
Example C148_errors_lost :
  let ops := [WireModel.OpRes (WireModel.mkRes 1 2 1 [4;5]); WireModel.OpRes (WireModel.mkRes 1 3 770 [])] in
  Forall (WireProps.response_call WireModel.RC0) ops /\
  map (fun p => Restartable (WireModel.p_code p)) (WireSpec.responses_of ops) = [true; false] /\
  map (fun p => Valid (WireModel.p_code p)) (WireSpec.responses_of ops) = [false; false].
Proof. split; [repeat constructor; vm_compute; congruence|split; reflexivity]. Qed.
