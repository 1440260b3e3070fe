(** C149: starting an endpoint, while others start it too or send to it. *)
From Coq Require Import List Bool Arith Lia.
Import ListNotations.
From Verif Require Import RunModel RunSpec RunProofs.

(** For every schedule, also with many calls of Run at once: Send never meets an endpoint that is half made. *)
Theorem C149_send_meets_no_half_made_endpoint : forall es k, ~ In (OCrash k) (fst (start es)).
Proof. exact no_crash. Qed.

(** For every schedule: once some Run has returned, no Send panics any more. *)
Theorem C149_started_endpoint_takes_requests : forall es es' k j r,
  In (ORan k) (fst (start es)) -> ~ In (OSendPanic j r) (fst (run (snd (start es)) es')).
Proof. intros es es' k j r H. apply no_panic_run. exact (ran_bch es k H). Qed.

(** Calls of Run that do not overlap: at most one of them starts the endpoint, and its Loop is entered once. *)
Theorem C149_started_once_partial : forall es, one_by_one (fst (start es)) ->
  length (ran (fst (start es))) <= 1 /\ loops (fst (start es)) = length (ran (fst (start es))).
Proof.
  intros es O. destruct (count_run es) as [A B]. split; [|congruence]. rewrite B, <- A.
  destruct (j_ph _ _ (J_run es O)); lia.
Qed.

(** When nothing can go on, one of the calls has started the endpoint, and all the others have panicked. *)
Theorem C149_the_others_panic_partial : forall es k, one_by_one (fst (start es)) -> quiet (snd (start es)) ->
  In (ORun k) (fst (start es)) ->
  exists k0, ran (fst (start es)) = [k0] /\ forall j, In (ORun j) (fst (start es)) -> j = k0 \/ In (ORunPanic j) (fst (start es)).
Proof.
  intros es k O Q X.
  assert (D : forall j, In (ORun j) (fst (start es)) -> In (ORan j) (fst (start es)) \/ In (ORunPanic j) (fst (start es))).
  { intros j Y. destruct (ended_run es j Y) as [Z|Z]; [|exact Z]. rewrite (quiet_not_running _ j Q) in Z. discriminate. }
  assert (B : bch (snd (start es)) <> None) by (destruct (D _ X) as [Y|Y]; [exact (ran_bch es k Y)|exact (runpanic_bch es k Y)]).
  destruct (quiet_empty _ _ (J_run es O) Q B) as [L _]. destruct (count_run es) as [A1 A2].
  assert (N : length (ran (fst (start es))) = 1) by congruence.
  destruct (ran (fst (start es))) as [|k0 [|]] eqn:R; try discriminate. exists k0. split; [reflexivity|].
  intros j Y. destruct (D _ Y) as [Z|Z]; [left|right; exact Z].
  assert (W : In j (ran (fst (start es)))) by (unfold ran; apply in_flat_map; exists (ORan j); simpl; auto).
  rewrite R in W. destruct W as [W|[]]. auto.
Qed.

(** With calls of Run that do not overlap, Loop gets the requests in the order in which their Send returned, each once; and when nothing can go on, all of them. *)
Theorem C149_loop_gets_requests_partial : forall es, one_by_one (fst (start es)) ->
  (exists rest, sent (fst (start es)) = taken (fst (start es)) ++ rest) /\
  (quiet (snd (start es)) -> sent (fst (start es)) = taken (fst (start es))).
Proof.
  intros es O. pose proof (J_run es O) as H. split; [exists (ch (snd (start es)) 0); apply (j_q _ _ H)|].
  intros Q. destruct (bch (snd (start es))) eqn:B.
  - destruct (quiet_empty _ _ H Q) as [_ E]; [congruence|]. rewrite (j_q _ _ H), E. apply app_nil_r.
  - destruct (empty_before es B) as [-> ->]. reflexivity.
Qed.

(** when nothing can go on: a state seen by its parts *)
Lemma quiet_by_parts : forall s, (forall k, pcs s k = PEnd \/ pcs s k = PNew) ->
  (forall l, lps s l = LNone \/ exists c, lps s l = LRecv c /\ ch s c = []) -> quiet s.
Proof.
  intros s H K. split.
  - intros k. simpl. unfold step_go. destruct (H k) as [-> | ->]; reflexivity.
  - intros l. simpl. unfold step_loop. destruct (K l) as [-> |(c & -> & ->)]; reflexivity.
Qed.

(** Overlapping calls: the check and the start are not one step. Both return, Loop is entered twice, and a request that was sent
    after the first Run had returned, to the endpoint it had started, is got by nobody, however long one waits. *)
Definition two_runs : list ev :=
  [Run 1; Run 2; Go 1; Go 2;                       (* both see an endpoint that is not started *)
   Go 1; Go 1; Go 1; Go 1; Go 1;                   (* the first call returns *)
   Go 2; Go 2; Go 2;                               (* the second is about to replace the channel *)
   Send 3 7; Go 3; Go 3; Go 3;                     (* a request is sent *)
   Go 2; Go 2; Loop 0; Loop 1].
Theorem C149_started_once_refuted : exists es,
  ran (fst (start es)) = [1; 2] /\ loops (fst (start es)) = 2 /\ sent (fst (start es)) = [7] /\ taken (fst (start es)) = [] /\
  quiet (snd (start es)).
Proof.
  exists two_runs. split; [reflexivity|]. split; [reflexivity|]. split; [reflexivity|]. split; [reflexivity|].
  apply quiet_by_parts.
  - intros k. do 4 (destruct k as [|k]; [vm_compute; auto|]). vm_compute; auto.
  - intros l. do 2 (destruct l as [|l]; [right; exists 1; vm_compute; auto|]). left. vm_compute; auto.
Qed.

(** ** Examples *)
(** two calls, one after the other, and a Send before, during and after the first: the hypotheses hold, the second call panics *)
Definition in_turn : list ev :=
  [Send 5 50; Go 5; Run 1; Go 1; Go 1; Send 6 60; Go 6; Go 1; Go 1; Go 1; Send 7 70; Go 7; Go 7; Go 7; Go 1;
   Run 2; Go 2; Send 8 80; Go 8; Go 8; Go 8; Loop 0; Loop 0; Loop 0; Loop 0; Loop 0].
Example C149_in_turn :
  fst (start in_turn) = [OSend 5 50; OSendPanic 5 50; ORun 1; OSend 6 60; OSendPanic 6 60; OSend 7 70; OSent 7 70; OLoop; ORan 1;
                         ORun 2; ORunPanic 2; OSend 8 80; OSent 8 80; OTake 70; OTake 80].
Proof. reflexivity. Qed.
Example C149_in_turn_one_by_one : one_by_one (fst (start in_turn)) /\ quiet (snd (start in_turn)).
Proof.
  split.
  - rewrite C149_in_turn. intros t1 k t2 j t3 E.
    do 15 (try (destruct t1 as [|? t1]; simpl in E; [|injection E as <- E])); try discriminate;
    injection E as <- E || idtac.
    all: do 16 (try (destruct t2 as [|? t2]; simpl in E; [|injection E as <- E])); try discriminate.
    all: try (injection E as <- E); simpl; auto 15; try (destruct t1; discriminate); try (destruct t2; discriminate).
  - apply quiet_by_parts.
    + intros k. do 9 (destruct k as [|k]; [vm_compute; auto|]). vm_compute; auto.
    + intros l. destruct l as [|l]; [right; exists 0; vm_compute; auto|]. left. vm_compute; auto.
Qed.

Print Assumptions C149_send_meets_no_half_made_endpoint.
Print Assumptions C149_started_endpoint_takes_requests.
Print Assumptions C149_started_once_partial.
Print Assumptions C149_the_others_panic_partial.
Print Assumptions C149_loop_gets_requests_partial.
Print Assumptions C149_started_once_refuted.
