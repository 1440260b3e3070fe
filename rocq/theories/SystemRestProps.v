(** C147: requests come back. A connection of the endpoint and the server at its other end, once they are at rest. *)
From Coq Require Import ZArith List Bool Arith Lia.
Import ListNotations.
From Verif Require Import Base WireModel WireSpec.
From Verif Require HolderModel HolderSpec HolderProps FleetModel FleetSpec FleetProps PairModel PairSpec PairProofs PairProps ServerModel ServerSpec ServerProps TripSpec TripProps PairWire WireReaderProofs TripProofs.
From Verif Require Import SystemSpec SystemProps.
Import HolderModel HolderSpec.

Lemma done_back i t r x : In (r, x) (dones (FleetSpec.at_conn i t)) -> In (r, x) (FleetSpec.completions t).
Proof.
  unfold dones. intro H. apply in_flat_map in H. destruct H as (o & H & X). destruct o as [| |r' x'|]; try contradiction. destruct X as [X|[]]. injection X as -> ->.
  unfold FleetSpec.at_conn in H. apply in_flat_map in H. destruct H as (e & E & Y). apply in_flat_map. exists e. split; [exact E|].
  destruct e as [| | |[]| |]; cbn in Y; try contradiction; try (destruct (_ =? _)%nat; [|contradiction]); destruct Y as [Y|[]]; try discriminate; injection Y as -> ->; now left.
Qed.
Lemma wire_at i t id r : In (FleetModel.FWire i id r) t -> In (id, r) (wires (FleetSpec.at_conn i t)).
Proof.
  intro H. unfold wires. apply in_flat_map. exists (OWire id r). split; [|now left]. unfold FleetSpec.at_conn. apply in_flat_map. eexists. split; [exact H|]. cbn. rewrite Nat.eqb_refl. now left.
Qed.
(** Connection i of an endpoint and the server at its other end see the same of each other, up to the very completions by
    users. When neither of the two can do anything more for what is under way, and both are up, then every request the
    endpoint has written on the connection has reached its handler; and it is complete at the user's side, unless the handler
    still has it. If the connection completed it, then with the answer of the handler. (That rest is reached is
    C119_moves_end_partial.) *)
Theorem C147_requests_come_back_partial : forall rc m msg body n es t os i dial csc ssc es' far p,
  FleetModel.start n es = (t, os) ->
  PairModel.run rc msg body dial (PairModel.p_init dial m csc ssc) es' = (far, Some p) ->
  PairSpec.in_sync rc dial es' -> PairSpec.proper_requests msg body -> PairSpec.proper_map m -> PairSpec.proper_answers es' ->
  PairSpec.client far = FleetSpec.at_conn i t -> timely (FleetSpec.at_conn i t) ->
  TripSpec.quiet rc msg body dial p -> ServerSpec.at_most_128 (PairSpec.server far) -> ~ In ServerModel.OClosed (PairSpec.server far) ->
  ServerModel.rp (PairModel.srv p) = ServerModel.RIdle -> PairModel.ph p = PairModel.Running -> PairModel.cok p = true -> open (PairModel.cli p) = true ->
  forall id r, In (FleetModel.FWire i id r) t ->
  exists k, In (k, mkReq (msg r) id (body r)) (PairSpec.reads far) /\
    (TripSpec.with_handler far k \/
     exists c b x, In (k, c, b) (PairSpec.comps far) /\ In (r, x) (FleetSpec.completions t) /\
       forall code b', x = Answer code b' -> code = PairSpec.code_seen rc m c /\ b' = b).
Proof.
  intros rc m msg body n es t os i dial csc ssc es' far p _ E Y HR HM HA AG T Q A NC RI PH K OP id r H.
  assert (T' : timely (PairSpec.client far)) by now rewrite AG.
  destruct (TripProps.C119_round_trip_partial _ _ _ _ _ _ _ _ _ _ E Y HR HM HA T' Q A NC RI PH K OP) as (RD & ALL).
  destruct (PairProps.C118_handlers_see_what_was_sent_partial _ _ _ _ _ _ _ _ _ _ E Y HR HM HA T') as (_ & SQ & _).
  apply wire_at in H. rewrite <- AG in H. apply In_nth_error in H as [k H]. exists k. split.
  - assert (X : nth_error (map snd (PairSpec.reads far)) k = Some (mkReq (msg r) id (body r))).
    { rewrite RD. exact (map_nth_error (fun w : Z * rid => mkReq (msg (snd w)) (fst w) (body (snd w))) k _ H). }
    rewrite nth_error_map in X. destruct (nth_error (PairSpec.reads far) k) as [[j q]|] eqn:N; [|discriminate]. cbn in X. injection X as ->.
    assert (J : nth_error (map fst (PairSpec.reads far)) k = Some j) by (rewrite nth_error_map, N; reflexivity).
    rewrite SQ in J. assert (L : (k < length (PairSpec.reads far))%nat) by (apply nth_error_Some; congruence).
    assert (j = k).
    { rewrite (nth_error_nth' _ 0%nat) in J by now rewrite seq_length. rewrite seq_nth in J by exact L. injection J as <-. reflexivity. }
    subst j. eapply nth_error_In; exact N.
  - destruct (ALL k id r H) as [W|(c & b & x & C & D & AN)]; [now left|]. right. exists c, b, x. split; [exact C|]. split; [|exact AN].
    eapply done_back. rewrite <- AG. exact D.
Qed.
Print Assumptions C147_requests_come_back_partial.

(** ** Example: connection 1 of C147_example, once the server has read request 2 *)
Definition rest_pair : list PairModel.ev :=
  PairProps.dial_up ++ [PairModel.Client (Local 9%nat 16)] ++ PairProps.send 0 ++ [PairModel.CFlush] ++ PairProps.rdreq ++ PairProps.send 2 ++
  [PairModel.Server (ServerModel.Complete 0%nat 0 [5]); PairModel.Server (ServerModel.Responder 0)] ++ PairProps.W 6 ++ PairProps.next_answer PairProps.all_there ++
  [PairModel.CFlush] ++ PairProps.rdreq.
Lemma ping_bytes r S r' u : WireReaderProofs.rinv r -> WireReaderProofs.strm r S -> hr_ping r = ROk r' u ->
  exists S', WireReaderProofs.rinv r' /\ WireReaderProofs.strm r' S' /\ (length S' + 12 <= length S)%nat.
Proof.
  intros I H E. unfold hr_ping in E. destruct (sl_Read r 12) as [r1 h|r1 e|] eqn:E1; try discriminate. cbn [r_bind] in E.
  destruct (TripProofs.Read_takes _ _ _ _ _ I H E1) as (I1 & S1 & H1 & L1).
  cbv zeta in E. destruct (_ && _); [|discriminate]. injection E as <- _. exists S1. split; [assumption|]. split; [assumption|]. lia.
Qed.
Lemma no_answer_dialled rc msg body p cuts : rc <> RC1 -> (length (w_out (PairModel.swr p)) <? 12 * S (PairModel.cread p))%nat = true -> PairModel.step rc msg body true p (PairModel.CRead cuts) = PairModel.ok p.
Proof.
  intros R1 L. apply Nat.ltb_lt in L. cbn [PairModel.step]. destruct (PairModel.ph p), (reader (PairModel.cli p)), (open (PairModel.cli p)); try reflexivity. unfold PairModel.client_reads.
  destruct (PairWire.pieces_carry cuts (w_out (PairModel.swr p))) as (P & rest & E & C).
  destruct (hr_ping _) as [r' u|r' e|] eqn:G; [|destruct (PairModel.cread p); reflexivity|destruct (PairModel.cread p); reflexivity].
  destruct (ping_bytes _ _ _ _ (WireReaderProofs.rinv_init _) (WireReaderProofs.strm_init _ _ C) G) as (S' & I' & H' & L').
  assert (LP : (length P <= length (w_out (PairModel.swr p)))%nat) by (rewrite E, app_length; lia).
  destruct (nth_error _ _) eqn:N; [|reflexivity]. exfalso. destruct (PairModel.cread p) as [|k] eqn:K; [lia|]. cbn [nth_error] in N.
  assert (k < length (fst (read_responses rc (S (S k)) r')))%nat by (apply nth_error_Some; congruence).
  pose proof (TripProps.responses_bytes rc (S (S k)) R1 _ _ I' H'). lia.
Qed.
Example C147_rest_example : exists t s far p, FleetModel.start 2 C147_client = (t, Some s) /\
  PairModel.run RC0 PairProps.ex_msg PairProps.ex_body true (PairModel.p_init true None [] []) rest_pair = (far, Some p) /\
  PairSpec.in_sync RC0 true rest_pair /\ PairSpec.proper_requests PairProps.ex_msg PairProps.ex_body /\ PairSpec.proper_map None /\ PairSpec.proper_answers rest_pair /\
  PairSpec.client far = FleetSpec.at_conn 1 t /\ timely (FleetSpec.at_conn 1 t) /\
  TripSpec.quiet RC0 PairProps.ex_msg PairProps.ex_body true p /\ ServerSpec.at_most_128 (PairSpec.server far) /\ ~ In ServerModel.OClosed (PairSpec.server far) /\
  ServerModel.rp (PairModel.srv p) = ServerModel.RIdle /\ PairModel.ph p = PairModel.Running /\ PairModel.cok p = true /\ open (PairModel.cli p) = true /\
  FleetSpec.written_on 1 t = [0; 2]%nat /\ In (0%nat, Answer 0 [5]) (FleetSpec.completions t) /\ TripSpec.with_handler far 1.
Proof.
  destruct (FleetModel.start 2 C147_client) as [t [s|]] eqn:E; [|exfalso; assert (X : snd (FleetModel.start 2 C147_client) <> None) by (vm_compute; discriminate); rewrite E in X; now apply X].
  exists t, s. assert (ET : t = fst (FleetModel.start 2 C147_client)) by now rewrite E. clear E. subst t. do 2 eexists. split; [reflexivity|]. split; [vm_compute; reflexivity|]. split; [now left|]. split; [exact PairProps.ex_proper|]. split; [exact Logic.I|]. split; [PairProps.answers_ok|].
  split; [vm_compute; reflexivity|]. split; [match goal with |- timely ?t => destruct (HolderProps.politeb_all t) as (_ & B & _); [vm_compute; reflexivity|exact B] end|].
  split.
  { intros e M. destruct e as [|cuts|e| | |cuts|e|cuts]; try contradiction.
    - destruct e; try contradiction. reflexivity.
    - reflexivity.
    - apply no_answer_dialled; [discriminate|reflexivity].
    - destruct e as [?|?| |? ? ?| | | | |n|]; try contradiction; try reflexivity. destruct n; reflexivity.
    - apply TripProps.no_request; reflexivity. }
  split; [apply ServerProps.few_ok; cbn; lia|]. split; [cbn; intuition discriminate|]. do 4 (split; [reflexivity|]). split; [vm_compute; reflexivity|]. split; [vm_compute; tauto|]. split; cbn; intuition discriminate.
Qed.
