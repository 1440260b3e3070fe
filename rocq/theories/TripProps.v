(** C119: a round trip completes. *)
From Coq Require Import ZArith List Bool Arith Lia.
Import ListNotations.
From Verif Require Import Base WireModel WireSpec PairModel PairSpec PairProofs PairProps TripSpec TripProofs.
From Verif Require HolderModel HolderSpec HolderProps ServerModel ServerSpec.
Open Scope Z_scope.

(** Left to themselves, the goroutines of the two ends come to rest after finitely many steps, however they are
    scheduled and however the bytes between them are cut. *)
Theorem C119_moves_end_partial : forall rc m msg body dial csc ssc es t p,
  run rc msg body dial (p_init dial m csc ssc) es = (t, Some p) ->
  in_sync rc dial es -> proper_requests msg body -> proper_map m -> proper_answers es -> HolderSpec.timely (client t) ->
  exists bound, forall es', effective rc msg body dial p es' -> (length es' <= bound)%nat.
Proof.
  intros rc m msg body dial csc ssc es t p E S HR HM HA T. destruct (run_J _ _ _ _ _ _ _ _ _ _ E S HR HM HA T) as (p0 & t0 & cops & sops & D & H & [[Q Q2]|[Q _]]); [|discriminate]. injection Q as <-. subst t0.
  exists (trip p t). intros es' F. exact (trip_bound rc m msg body dial HR HM (in_sync_rc _ _ _ S) es' p t cops sops D H T F).
Qed.
Print Assumptions C119_moves_end_partial.

Lemma read_on_moves N n e : In e (read_on N n) -> move e.
Proof.
  unfold read_on. intro H. apply in_app_or in H. destruct H as [H|[<-|[]]]; [|exact Logic.I]. apply in_flat_map in H. destruct H as (x & _ & [<-|[<-|[]]]); exact Logic.I.
Qed.
Lemma quiet_run rc msg body dial p es : quiet rc msg body dial p -> (forall e, In e es -> move e) -> run rc msg body dial p es = ok p.
Proof.
  intro Q. induction es as [|e es IH]; intro M; [reflexivity|]. cbn [run]. rewrite (Q e (M e (or_introl eq_refl))). unfold ok at 1. cbv beta iota. rewrite IH; [reflexivity|]. intros x X. apply M. now right.
Qed.
(** At rest, with both ends up, each request that was sent has been read by the server, in the order of sending, and it
    is complete at the client unless its handler still has it; what it was completed with, if it is an answer, is what
    the handler gave. *)
Theorem C119_round_trip_partial : forall rc m msg body dial csc ssc es t p,
  run rc msg body dial (p_init dial m csc ssc) es = (t, Some p) ->
  in_sync rc dial es -> proper_requests msg body -> proper_map m -> proper_answers es -> HolderSpec.timely (client t) ->
  quiet rc msg body dial p -> ServerSpec.at_most_128 (server t) -> ~ In ServerModel.OClosed (server t) -> ServerModel.rp (srv p) = ServerModel.RIdle ->
  ph p = Running -> cok p = true -> HolderModel.open (cli p) = true ->
  map snd (reads t) = map (fun w => mkReq (msg (snd w)) (fst w) (body (snd w))) (sends t) /\
  forall k id r, nth_error (sends t) k = Some (id, r) -> with_handler t k \/
    exists c b x, In (k, c, b) (comps t) /\ In (r, x) (dones t) /\ forall code b', x = HolderModel.Answer code b' -> code = code_seen rc m c /\ b' = b.
Proof.
  intros rc m msg body dial csc ssc es t p E S HR HM HA T Q A NC RI PH K OP. pose proof (in_sync_rc _ _ _ S) as RC.
  destruct (C118_every_answer_arrives_partial _ _ _ _ _ _ _ _ _ _ E S HR HM HA T (quiet_stuck _ _ _ _ _ Q) A NC PH OP) as (n & t' & p' & R & _ & ALL).
  rewrite (quiet_run _ _ _ _ _ _ Q (read_on_moves _ _)) in R. injection R as <- <-. rewrite app_nil_r in ALL.
  destruct (run_J _ _ _ _ _ _ _ _ _ _ E S HR HM HA T) as (p0 & t0 & cops & sops & D & H & [[Q1 Q2]|[Q1 _]]); [|discriminate]. injection Q1 as <-. subst t0.
  pose proof (quiet_read rc m msg body dial p t cops sops D H Q PH K RI) as RD. split; [exact RD|]. intros k id r N.
  assert (LK : (k < length (reads t))%nat) by (rewrite <- (map_length snd), RD, map_length; apply nth_error_Some; congruence).
  destruct (in_dec Nat.eq_dec k (map (fun c => fst (fst c)) (comps t))) as [I|I].
  - right. apply in_map_iff in I. destruct I as ([[k0 c] b] & Ek & I). cbn in Ek. subst k0. destruct (ALL k c b I) as (id' & r' & x & N' & DN & AN). rewrite N in N'. injection N' as <- <-. exists c, b, x. exact (conj I (conj DN AN)).
  - left. split; [|exact I]. rewrite (sr_r (j_sr H)) in LK |- *. rewrite map_length, seq_length in LK. rewrite map_map. cbn [fst]. rewrite map_id. apply in_seq. lia.
Qed.
Print Assumptions C119_round_trip_partial.

(** ** an example: three requests, two answered, all read; the third is with its handler *)
Lemma responses_bytes rc fuel : rc <> RC1 -> forall r S, WireReaderProofs.rinv r -> WireReaderProofs.strm r S -> (12 * length (fst (read_responses rc fuel r)) <= length S)%nat.
Proof.
  intro R1. induction fuel as [|fuel IH]; intros r S I H; [cbn; lia|]. cbn [read_responses]. destruct (hr_response rc r) as [r' q|r' e|] eqn:E; [|cbn; lia|cbn; lia].
  unfold hr_response in E. destruct (sl_Read r 12) as [r1 h|r1 e|] eqn:E1; try discriminate. cbn [r_bind] in E. cbv zeta in E. destruct (Read_takes _ _ _ _ _ I H E1) as (I1 & S1 & H1 & L1).
  assert (G : exists S2, WireReaderProofs.rinv r' /\ WireReaderProofs.strm r' S2 /\ (length S2 + 12 <= length S)%nat).
  { assert (G1 : forall n code y z, r_bind (sl_Read r1 n) (fun r2 b => ROk r2 (mkRs y z code b)) = ROk r' q -> exists S2, WireReaderProofs.rinv r' /\ WireReaderProofs.strm r' S2 /\ (length S2 + 12 <= length S)%nat).
    { intros n code y z X. destruct (sl_Read r1 n) as [r2 b|r2 e|] eqn:E2; try discriminate. injection X as <- _. destruct (Read_takes _ _ _ _ _ I1 H1 E2) as (I2 & S2 & H2 & L2). exists S2. split; [assumption|]. split; [assumption|]. lia. }
    destruct (_ =? PING); [now apply G1 in E|]. destruct rc; [|now elim R1|now apply G1 in E]. destruct (_ <? 4); [now apply G1 in E|].
    destruct (sl_Read r1 4) as [r2 c|r2 e|] eqn:E2; try discriminate. cbn [r_bind] in E. destruct (Read_takes _ _ _ _ _ I1 H1 E2) as (I2 & S2 & H2 & L2).
    destruct (sl_Read r2 _) as [r3 b|r3 e|] eqn:E3; try discriminate. injection E as <- _. destruct (Read_takes _ _ _ _ _ I2 H2 E3) as (I3 & S3 & H3 & L3). exists S3. split; [assumption|]. split; [assumption|]. lia. }
  destruct G as (S2 & I2 & H2 & L2). specialize (IH r' S2 I2 H2). destruct (read_responses rc fuel r') as [l e]. cbn [fst length] in *. lia.
Qed.
Lemma nth_response_bytes rc fuel cuts b n q : rc <> RC1 -> nth_error (fst (read_responses rc fuel (r_init (pieces cuts b)))) n = Some q -> (12 * S n <= length b)%nat.
Proof.
  intros R1 H. destruct (PairWire.pieces_carry cuts b) as (P & rest & E & C). pose proof (responses_bytes rc fuel R1 _ P (WireReaderProofs.rinv_init _) (WireReaderProofs.strm_init _ _ C)) as L.
  assert (n < length (fst (read_responses rc fuel (r_init (pieces cuts b)))))%nat by (apply nth_error_Some; congruence). rewrite E, app_length. lia.
Qed.
Lemma no_answer rc msg body p cuts : rc <> RC1 -> (length (w_out (swr p)) <? 12 * S (cread p))%nat = true -> step rc msg body false p (CRead cuts) = ok p.
Proof.
  intros R1 L. apply Nat.ltb_lt in L. cbn [step]. destruct (ph p), (HolderModel.reader (cli p)), (HolderModel.open (cli p)); try reflexivity. unfold client_reads. destruct (nth_error _ _) eqn:E; [|reflexivity]. apply nth_response_bytes in E; [lia|exact R1].
Qed.
Lemma no_request rc msg body dial p cuts : (length (w_out (cwr p)) <? 12 * S (sread p))%nat = true -> step rc msg body dial p (SRead cuts) = ok p.
Proof.
  intro L. apply Nat.ltb_lt in L. cbn [step]. destruct (ServerModel.rp (srv p)); try reflexivity. destruct (nth_error _ _) eqn:E; [|reflexivity]. apply nth_bytes in E. lia.
Qed.
Definition ex_trip := ex4 ++ PairProps.reading ++ [CFlush].
Example C119_ex : exists t p, run RC4 ex_msg ex_body false (p_init false None [] []) ex_trip = (t, Some p) /\
  in_sync RC4 false ex_trip /\ proper_requests ex_msg ex_body /\ proper_map None /\ proper_answers ex_trip /\ HolderSpec.timely (client t) /\
  quiet RC4 ex_msg ex_body false p /\ ServerSpec.at_most_128 (server t) /\ ~ In ServerModel.OClosed (server t) /\ ServerModel.rp (srv p) = ServerModel.RIdle /\
  ph p = Running /\ cok p = true /\ HolderModel.open (cli p) = true /\
  map snd (sends t) = [0; 1; 2]%nat /\ dones t = [(1%nat, HolderModel.Answer 0 [5; 6]); (0%nat, HolderModel.Answer 0x102 [])] /\ with_handler t 2.
Proof.
  do 2 eexists. split; [vm_compute; reflexivity|]. split; [right; repeat split; cbn; intuition discriminate|]. split; [exact ex_proper|]. split; [exact Logic.I|]. split; [answers_ok|]. split; [apply HolderProps.politeb_all; vm_compute; reflexivity|].
  split.
  { intros e M. destruct e as [|cuts|e| | |cuts|e|cuts]; try contradiction.
    - destruct e; try contradiction. reflexivity.
    - reflexivity.
    - apply no_answer; [discriminate|reflexivity].
    - destruct e as [?|?| |? ? ?| | | | |n|]; try contradiction; try reflexivity. destruct n; reflexivity.
    - apply no_request; reflexivity. }
  split; [apply ServerProps.few_ok; cbn; lia|]. split; [cbn; intuition discriminate|]. do 4 (split; [reflexivity|]). split; [reflexivity|]. split; [reflexivity|]. split; cbn; intuition discriminate.
Qed.
