(** C147: a client endpoint and the servers at the other end of its connections. *)
From Coq Require Import ZArith List Bool Arith Lia.
Import ListNotations.
From Verif Require Import Base WireModel WireSpec.
From Verif Require HolderModel HolderSpec HolderProofs HolderProps FleetModel FleetSpec FleetInv FleetProofs FleetProps PairModel PairSpec PairProofs PairLink PairProps ServerModel ServerSpec.
From Verif Require CodecModel CodecSpec CallModel CallSpec CallProps.
From Verif Require Import SystemSpec.
Import HolderModel HolderSpec.

(** * What politeness depends on *)
Lemma tracked_from t : forall s, fold_left track (traffic t) s = fold_left track t s.
Proof. induction t as [|o t IH]; intro s; [reflexivity|]. cbn [traffic filter fold_left]. destruct o as [| |r []|]; cbn [fold_left]; apply IH. Qed.
Lemma tracked_traffic t : tracked (traffic t) = tracked t. Proof. apply tracked_from. Qed.
Lemma traffic_split t : forall p x q, traffic t = p ++ x :: q -> exists p' q', t = p' ++ x :: q' /\ traffic p' = p.
Proof.
  induction t as [|o t IH]; intros p x q E; [now destruct p|]. cbn [traffic filter] in E. fold (traffic t) in E.
  destruct (match o with ODone _ (Elsewhere _) => false | _ => true end) eqn:K.
  - destruct p as [|y p]; [injection E as <- _; now exists [], t|]. injection E as <- E. destruct (IH _ _ _ E) as (p' & q' & -> & <-). exists (o :: p'), q'. split; [reflexivity|]. cbn [traffic filter]. now rewrite K.
  - destruct (IH _ _ _ E) as (p' & q' & -> & <-). exists (o :: p'), q'. split; [reflexivity|]. cbn [traffic filter]. now rewrite K.
Qed.
Lemma traffic_app a b : traffic (a ++ b) = traffic a ++ traffic b. Proof. apply filter_app. Qed.
Lemma polite_traffic t : polite t <-> polite (traffic t).
Proof.
  split; intros P p i code body q E.
  - destruct (traffic_split _ _ _ _ E) as (p' & q' & -> & <-). unfold unanswered. rewrite tracked_traffic. now apply (P p' i code body q').
  - subst t. specialize (P (traffic p) i code body (traffic q)). rewrite traffic_app in P. specialize (P eq_refl). unfold unanswered in *. now rewrite tracked_traffic in P.
Qed.
Lemma timely_traffic t : timely t <-> timely (traffic t).
Proof.
  split; intros P p i r q E.
  - destruct (traffic_split _ _ _ _ E) as (p' & q' & -> & <-). unfold nsent, unanswered. rewrite tracked_traffic. now apply (P p' i r q').
  - subst t. specialize (P (traffic p) i r (traffic q)). rewrite traffic_app in P. specialize (P eq_refl). unfold nsent, unanswered in *. now rewrite tracked_traffic in P.
Qed.
Lemma wires_traffic t : wires (traffic t) = wires t.
Proof. induction t as [|o t IH]; [reflexivity|]. cbn [traffic filter]. destruct o as [| |r []|]; cbn [wires flat_map app]; try exact IH. fold (traffic t) (wires (traffic t)) (wires t). now rewrite IH. Qed.
Lemma answer_traffic t r code b : In (r, Answer code b) (dones (traffic t)) <-> In (r, Answer code b) (dones t).
Proof.
  unfold dones. rewrite !in_flat_map. split; intros (x & X & Y).
  - exists x. split; [|exact Y]. apply filter_In in X. tauto.
  - exists x. split; [|exact Y]. apply filter_In. split; [exact X|]. destruct x as [| |r' []|]; cbn in *; try reflexivity. destruct Y as [Y|[]]. discriminate.
Qed.

(** * The servers behave *)
Lemma far_facts rc m msg body t far i : system rc m msg body t far -> in_time t -> timely (PairSpec.client (far i)) /\ polite (FleetSpec.at_conn i t) /\
  PairSpec.sends (far i) = wires (FleetSpec.at_conn i t).
Proof.
  intros (HR & HM & HS) T. destruct (HS i) as (dial & csc & ssc & es & op & E & Y & PA & TR).
  assert (TM : timely (PairSpec.client (far i))) by (apply (proj2 (timely_traffic _)); rewrite TR; apply (proj1 (timely_traffic _)), T).
  split; [exact TM|]. split.
  - apply (proj2 (polite_traffic _)). rewrite <- TR. apply (proj1 (polite_traffic _)). destruct (PairProps.run_J _ _ _ _ _ _ _ _ _ _ E Y HR HM PA TM) as (p' & t' & c & s & D & H & Q).
    pose proof (PairLink.k_pol _ _ _ (PairProofs.cr_k (PairProofs.j_cr H))) as P. destruct Q as [[_ <-]|[_ ->]]; [exact P|]. now rewrite (proj1 (PairProps.panic_nothing t')).
  - unfold PairSpec.sends. now rewrite <- (wires_traffic (PairSpec.client (far i))), TR, wires_traffic.
Qed.
(** A server of this library answers only what it was asked, each request at most once: everything that C146 says of such peers
    holds. *)
Theorem C147_peers_behave_partial : forall rc m msg body n es t os far, FleetModel.start n es = (t, os) -> system rc m msg body t far -> in_time t -> FleetSpec.good_peers t.
Proof. intros rc m msg body n es t os far E S T i. split; [|apply T]. exact (proj1 (proj2 (far_facts _ _ _ _ _ _ i S T))). Qed.
Print Assumptions C147_peers_behave_partial.
(** In particular the client does not panic. *)
Theorem C147_no_panic_partial : forall rc m msg body n es t os far, FleetModel.start n es = (t, os) -> system rc m msg body t far -> in_time t -> os <> None.
Proof. intros rc m msg body n es t os far E S T. eapply FleetProps.C146_no_panic_partial; [exact E|]. eapply C147_peers_behave_partial; eauto. Qed.
Print Assumptions C147_no_panic_partial.

(** * Answers *)
(** The answer which a connection gives to a request is the answer which the handler of the server at its other end gave to that
    very request. *)
Theorem C147_answers_come_from_the_handler_partial : forall rc m msg body n es t os far, FleetModel.start n es = (t, os) -> system rc m msg body t far -> in_time t ->
  forall i r code b, In (FleetModel.FDone (FleetModel.ByConn i) r (Answer code b)) t ->
  exists k id c, serves far i k r /\ In (FleetModel.FWire i id r) t /\ In (k, mkReq (msg r) id (body r)) (PairSpec.reads (far i)) /\ In (k, c, b) (PairSpec.comps (far i)) /\ code = PairSpec.code_seen rc m c.
Proof.
  intros rc m msg body n es t os far E S T i r code b D. destruct (far_facts _ _ _ _ _ _ i S T) as (TM & _ & SD). destruct S as (HR & HM & HS). destruct (HS i) as (dial & csc & ssc & es' & op & E' & Y & PA & TR).
  assert (X : In (r, Answer code b) (PairSpec.dones (far i))).
  { unfold PairSpec.dones. apply (proj1 (answer_traffic _ _ _ _)). rewrite TR. apply (proj2 (answer_traffic _ _ _ _)). apply in_flat_map. eexists. split; [apply FleetProps.in_at_done; exact D|]. now left. }
  destruct (PairProps.C118_answers_come_from_the_handler_partial _ _ _ _ _ _ _ _ _ _ E' Y HR HM PA TM _ _ _ X) as (k & id & c & A & B & C & F). exists k, id, c.
  split; [split; [now apply (in_map fst) in B|eauto]|]. split; [|auto]. apply FleetProps.at_wire. rewrite <- SD. exact (nth_error_In _ _ A).
Qed.
Print Assumptions C147_answers_come_from_the_handler_partial.

(** * At most one handler, once *)
Lemma written_at i t : map snd (wires (FleetSpec.at_conn i t)) = FleetSpec.written_on i t.
Proof.
  induction t as [|o t IH]; [reflexivity|]. cbn [FleetSpec.at_conn flat_map]. fold (FleetSpec.at_conn i t). rewrite HolderProofs.wires_app, map_app, IH. unfold FleetSpec.written_on. cbn [flat_map].
  f_equal. destruct o as [| j id r|j id c b|[]|j|]; cbn; try (destruct (_ =? _)%nat); reflexivity.
Qed.
Lemma written_some i r t : In r (FleetSpec.written_on i t) -> In r (FleetSpec.written t).
Proof. unfold FleetSpec.written_on, FleetSpec.written. rewrite !in_flat_map. intros (o & A & B). exists o. split; [exact A|]. destruct o; try contradiction. destruct (_ =? _)%nat; [exact B|contradiction]. Qed.
Lemma written_one i j r t : NoDup (FleetSpec.written t) -> In r (FleetSpec.written_on i t) -> In r (FleetSpec.written_on j t) -> i = j.
Proof.
  induction t as [|o t IH]; [easy|]. unfold FleetSpec.written, FleetSpec.written_on in *. cbn [flat_map]. intros N A B.
  destruct o as [|k id q| | | |]; cbn [app] in *; try now apply IH. apply NoDup_cons_iff in N as [N1 N]. fold (FleetSpec.written t) in N1.
  destruct (Nat.eqb_spec k i) as [->|NI], (Nat.eqb_spec i j) as [->|NJ]; try reflexivity.
  - destruct (Nat.eqb_spec i j); [contradiction|]. cbn [app] in *. destruct A as [<-|A]; [elim N1; eapply written_some; exact B|now apply IH].
  - destruct (Nat.eqb_spec k j) as [->|]; cbn [app] in *; [|now apply IH]. destruct B as [<-|B]; [elim N1; eapply written_some; exact A|now apply IH].
Qed.
Lemma NoDup_written_on i t : NoDup (FleetSpec.written t) -> NoDup (FleetSpec.written_on i t).
Proof.
  induction t as [|o t IH]; [constructor|]. unfold FleetSpec.written, FleetSpec.written_on in *. cbn [flat_map]. intro N.
  destruct o as [|k id q| | | |]; cbn [app] in *; try now apply IH. apply NoDup_cons_iff in N as [N1 N]. destruct (k =? i)%nat; cbn [app]; [|now apply IH]. constructor; [|now apply IH]. intro X. apply N1. eapply written_some. exact X.
Qed.
(** What any handler sees is some request of a user of the endpoint, with its type and body, and one which was sent and not yet
    complete when it was written. No request of a user is seen twice: not by two servers, not on two connections, not twice on one. And
    each is completed by its handler at most once. *)
Theorem C147_handled_at_most_once_partial : forall rc m msg body n es t os far, FleetModel.start n es = (t, os) -> system rc m msg body t far -> in_time t ->
  (forall i k q, In (k, q) (PairSpec.reads (far i)) -> exists r id, serves far i k r /\ q = mkReq (msg r) id (body r) /\ In (FleetModel.FWire i id r) t /\ In (FleetModel.FSent r) t) /\
  (forall i k j l r, serves far i k r -> serves far j l r -> i = j /\ k = l) /\
  (forall i, NoDup (map fst (PairSpec.reads (far i))) /\ NoDup (map (fun c => fst (fst c)) (PairSpec.comps (far i))) /\ forall k c b, In (k, c, b) (PairSpec.comps (far i)) -> In k (map fst (PairSpec.reads (far i)))).
Proof.
  intros rc m msg body n es t os far E S T. pose proof (FleetProps.C146_written_at_most_once _ _ _ _ E) as W.
  assert (HA : forall i, exists es' dial csc ssc op, PairModel.run rc msg body dial (PairModel.p_init dial m csc ssc) es' = (far i, op) /\ PairSpec.in_sync rc dial es' /\ PairSpec.proper_answers es').
  { intro i. destruct S as (_ & _ & HS). destruct (HS i) as (dial & csc & ssc & es' & op & E' & Y & PA & _). now exists es', dial, csc, ssc, op. }
  assert (H : forall i, PairSpec.prefix (map snd (PairSpec.reads (far i))) (map (fun w => mkReq (msg (snd w)) (fst w) (body (snd w))) (PairSpec.sends (far i))) /\ map fst (PairSpec.reads (far i)) = seq 0 (length (PairSpec.reads (far i))) /\
    NoDup (map (fun c => fst (fst c)) (PairSpec.comps (far i))) /\ forall k c b, In (k, c, b) (PairSpec.comps (far i)) -> In k (map fst (PairSpec.reads (far i)))).
  { intro i. destruct (far_facts _ _ _ _ _ _ i S T) as (TM & _ & _). destruct S as (HR & HM & _). destruct (HA i) as (es' & dial & csc & ssc & op & E' & Y & PA).
    destruct (PairProps.C118_handlers_see_what_was_sent_partial _ _ _ _ _ _ _ _ _ _ E' Y HR HM PA TM) as (A & B & _ & C & D). auto. }
  assert (SD : forall i, PairSpec.sends (far i) = wires (FleetSpec.at_conn i t)) by (intro i; apply (far_facts _ _ _ _ _ _ i S T)).
  split; [|split].
  - intros i k q Q. destruct (H i) as ([z A] & B & _). apply In_nth_error in Q as [j Q].
    assert (K : k = j). { apply (map_nth_error fst) in Q. cbn [fst] in Q. rewrite B in Q. assert (L : (j < length (PairSpec.reads (far i)))%nat) by (rewrite <- (seq_length (length (PairSpec.reads (far i))) 0); apply nth_error_Some; congruence).
      rewrite nth_error_nth' with (d := 0%nat) in Q by (now rewrite seq_length). injection Q as Q. rewrite seq_nth in Q by exact L. lia. }
    subst j. pose proof (map_nth_error snd _ _ Q) as Q2. cbn [snd] in Q2.
    assert (N : nth_error (map (fun w => mkReq (msg (snd w)) (fst w) (body (snd w))) (PairSpec.sends (far i))) k = Some q) by (rewrite A, nth_error_app1; [exact Q2|apply nth_error_Some; congruence]).
    destruct (nth_error (PairSpec.sends (far i)) k) as [[id r]|] eqn:NE.
    2:{ apply nth_error_None in NE. assert (L : (k < length (map (fun w => mkReq (msg (snd w)) (fst w) (body (snd w))) (PairSpec.sends (far i))))%nat) by (apply nth_error_Some; congruence). rewrite map_length in L. lia. }
    rewrite (map_nth_error _ _ _ NE) in N. injection N as N. cbn [fst snd] in N. exists r, id.
    assert (WI : In (FleetModel.FWire i id r) t) by (apply FleetProps.at_wire; rewrite <- SD; exact (nth_error_In _ _ NE)).
    split; [split; [|eauto]|]; [apply nth_error_In in Q; now apply (in_map fst) in Q|]. split; [now symmetry|]. split; [exact WI|].
    apply in_split in WI as (p & q' & ->). destruct (FleetProps.C146_written_only_while_wanted _ _ _ _ E _ _ _ _ _ eq_refl) as [X _]. apply in_app_iff. now left.
  - intros i k j l r (_ & id & A) (_ & id' & B). rewrite SD in A, B. apply (map_nth_error snd) in A. apply (map_nth_error snd) in B. cbn [snd] in A, B. rewrite written_at in A, B.
    assert (i = j) by (apply (written_one i j r t W); [exact (nth_error_In _ _ A)|exact (nth_error_In _ _ B)]). subst j. split; [reflexivity|].
    apply (proj1 (NoDup_nth_error _) (NoDup_written_on i t W)); [apply nth_error_Some; intro X; pose proof (eq_trans (eq_sym A) X); discriminate|exact (eq_trans A (eq_sym B))].
  - intro i. destruct (H i) as (_ & B & C & D). split; [rewrite B; apply seq_NoDup|auto].
Qed.
Print Assumptions C147_handled_at_most_once_partial.

(** * Functions *)
(** The servers offer a function h, of any types the codec is right for (C18), and the bodies of the requests are what Call makes of
    the arguments. Then an answer without an error, on whatever connection, read into a variable of the result's type, is the
    function of the argument of that very request. *)
Theorem C147_remote_function_partial : forall (T U : CodecModel.ty) (h : CodecModel.val T -> CodecModel.val U) (arg : rid -> CodecModel.val T) rc m msg body n es t os far,
  CodecSpec.good T = true -> CodecSpec.good U = true -> CodecSpec.no_skip T = true -> CodecSpec.no_skip U = true -> (forall r, CodecSpec.fits T (arg r)) -> (forall v, CodecSpec.fits T v -> CodecSpec.fits U (h v)) ->
  (forall r, CallModel.body_of (CallModel.DVal T (arg r)) = CodecModel.Ok (body r)) ->
  FleetModel.start n es = (t, os) -> system rc m msg body t far -> in_time t -> (forall i, CallSpec.offers h (far i) /\ CallSpec.told rc (far i)) ->
  forall i r b, In (FleetModel.FDone (FleetModel.ByConn i) r (Answer RC_OK b)) t -> forall old, CodecSpec.shaped U old -> CallModel.Body_Read U b old = CodecModel.Ok (h (arg r), None).
Proof.
  intros T U h arg rc m msg body n es t os far GT GU NT NU FT FU HB E S HT HO i r b D old SH. destruct (far_facts _ _ _ _ _ _ i S HT) as (TM & _). destruct S as (HR & HM & HS). destruct (HS i) as (dial & csc & ssc & es' & op & E' & Y & PA & TR).
  destruct (HO i) as [OF TL]. eapply (CallProps.C137_remote_function_partial T U h arg); try eassumption.
  unfold PairSpec.dones. apply (proj1 (answer_traffic _ _ _ _)). rewrite TR. apply (proj2 (answer_traffic _ _ _ _)). apply in_flat_map. eexists. split; [apply FleetProps.in_at_done; exact D|]. now left.
Qed.
Print Assumptions C147_remote_function_partial.

(** * Example *)
(** Two connections. Request 9 is given up by its user before anything else; request 0 goes out on connection 1 and request 1 on
    connection 2, both are answered by the handlers; request 2 is on connection 1 and has no answer yet. *)
Definition C147_client : list FleetModel.ev :=
  [FleetModel.Local 9%nat 16] ++ FleetProps.fup 1 ++ FleetProps.fup 2 ++
  [FleetModel.Send 0%nat; FleetModel.Send 1%nat; FleetModel.Take 1; FleetModel.Fetch 1; FleetModel.Write 1 true; FleetModel.Take 2; FleetModel.Fetch 2; FleetModel.Write 2 true; FleetModel.Send 2%nat;
   FleetModel.Ep (ClientModel.W 1); FleetModel.Take 1; FleetModel.Fetch 1; FleetModel.Write 1 true; FleetModel.Resp 2 1 0 [6; 7]; FleetModel.Deliver 2; FleetModel.Resp 1 1 0 [5]; FleetModel.Deliver 1].
Definition C147_pair1 : list PairModel.ev :=
  PairProps.dial_up ++ PairProps.send 0 ++ [PairModel.CFlush] ++ PairProps.rdreq ++ PairProps.send 2 ++
  [PairModel.Server (ServerModel.Complete 0%nat 0 [5]); PairModel.Server (ServerModel.Responder 0)] ++ PairProps.W 6 ++ PairProps.next_answer PairProps.all_there.
Definition C147_pair2 : list PairModel.ev :=
  PairProps.dial_up ++ PairProps.send 1 ++ [PairModel.CFlush] ++ PairProps.rdreq ++
  [PairModel.Server (ServerModel.Complete 0%nat 0 [6; 7]); PairModel.Server (ServerModel.Responder 0)] ++ PairProps.W 6 ++ PairProps.next_answer PairProps.all_there.
Definition C147_pairs (i : nat) : list PairModel.ev := match i with 1%nat => C147_pair1 | 2%nat => C147_pair2 | _ => [] end.
Definition C147_far (i : nat) : list PairModel.obs := fst (PairModel.run RC0 PairProps.ex_msg PairProps.ex_body true (PairModel.p_init true None [] []) (C147_pairs i)).
Example C147_example : exists t s, FleetModel.start 2 C147_client = (t, Some s) /\ system RC0 None PairProps.ex_msg PairProps.ex_body t C147_far /\ in_time t /\
  FleetSpec.completions t = [(9%nat, Elsewhere 16); (1%nat, Answer 0 [6; 7]); (0%nat, Answer 0 [5])] /\ FleetSpec.written t = [0; 1; 2]%nat /\
  PairSpec.comps (C147_far 1) = [(0%nat, 0, [5])] /\ serves C147_far 1 0 0%nat /\ serves C147_far 2 0 1%nat.
Proof.
  destruct (FleetModel.start 2 C147_client) as [t [s|]] eqn:E; [|exfalso; assert (X : snd (FleetModel.start 2 C147_client) <> None) by (vm_compute; discriminate); rewrite E in X; now apply X].
  exists t, s. assert (ET : t = fst (FleetModel.start 2 C147_client)) by now rewrite E. split; [reflexivity|]. rewrite ET. split; [|split; [|split; [vm_compute; reflexivity|split; [vm_compute; reflexivity|split; [vm_compute; reflexivity|split]]]]].
  - split; [exact PairProps.ex_proper|]. split; [exact Logic.I|]. intro i. exists true, [], [], (C147_pairs i), (snd (PairModel.run RC0 PairProps.ex_msg PairProps.ex_body true (PairModel.p_init true None [] []) (C147_pairs i))).
    split; [apply surjective_pairing|]. split; [now left|]. destruct i as [|[|[|i]]]; (split; [PairProps.answers_ok|vm_compute; reflexivity]).
  - intro i. destruct i as [|[|[|i]]]; (match goal with |- timely ?t => destruct (HolderProps.politeb_all t) as (_ & B & _); [vm_compute; reflexivity|exact B] end).
  - split; [vm_compute; tauto|]. eexists. vm_compute. reflexivity.
  - split; [vm_compute; tauto|]. eexists. vm_compute. reflexivity.
Qed.
(** the same with the function "next number modulo 256" of C137 *)
Definition C147_calls : list FleetModel.ev := firstn (length C147_client - 4) C147_client ++ [FleetModel.Resp 2 1 0 [0]; FleetModel.Deliver 2; FleetModel.Resp 1 1 0 [8]; FleetModel.Deliver 1].
Definition C147_served (i : nat) : list PairModel.ev :=
  map (fun e => match e with PairModel.Server (ServerModel.Complete k c _) => PairModel.Server (ServerModel.Complete k c [match i with 1%nat => 8 | _ => 0 end]) | e => e end) (C147_pairs i).
Definition C147_far2 (i : nat) : list PairModel.obs := fst (PairModel.run RC0 (fun _ => 3) (fun r => [CallProps.nx_arg r]) true (PairModel.p_init true None [] []) (C147_served i)).
Example C147_example_calls : exists t s, FleetModel.start 2 C147_calls = (t, Some s) /\ system RC0 None (fun _ => 3) (fun r => [CallProps.nx_arg r]) t C147_far2 /\ in_time t /\
  FleetSpec.completions t = [(9%nat, Elsewhere 16); (1%nat, Answer 0 [0]); (0%nat, Answer 0 [8])] /\
  forall i, CallSpec.offers CallProps.nx_h (C147_far2 i) /\ CallSpec.told RC0 (C147_far2 i).
Proof.
  destruct (FleetModel.start 2 C147_calls) as [t [s|]] eqn:E; [|exfalso; assert (X : snd (FleetModel.start 2 C147_calls) <> None) by (vm_compute; discriminate); rewrite E in X; now apply X].
  exists t, s. assert (ET : t = fst (FleetModel.start 2 C147_calls)) by now rewrite E. split; [reflexivity|]. rewrite ET. split; [|split; [|split; [vm_compute; reflexivity|]]].
  - split; [intro r; unfold u32_ok, PING, zlen; cbn; lia|]. split; [exact Logic.I|]. intro i. exists true, [], [], (C147_served i), (snd (PairModel.run RC0 (fun _ => 3) (fun r => [CallProps.nx_arg r]) true (PairModel.p_init true None [] []) (C147_served i))).
    split; [apply surjective_pairing|]. split; [now left|]. destruct i as [|[|[|i]]]; (split; [PairProps.answers_ok|vm_compute; reflexivity]).
  - intro i. destruct i as [|[|[|i]]]; (match goal with |- timely ?t => destruct (HolderProps.politeb_all t) as (_ & B & _); [vm_compute; reflexivity|exact B] end).
  - assert (RD : forall i, PairSpec.reads (C147_far2 i) = match i with 1%nat => [(0%nat, mkReq 3 1 [7])] | 2%nat => [(0%nat, mkReq 3 1 [255])] | _ => [] end) by (intros [|[|[|i]]]; vm_compute; reflexivity).
    assert (CM : forall i, PairSpec.comps (C147_far2 i) = match i with 1%nat => [(0%nat, 0, [8])] | 2%nat => [(0%nat, 0, [0])] | _ => [] end) by (intros [|[|[|i]]]; vm_compute; reflexivity).
    intro i. split.
    + intros k q b R C. rewrite RD in R. rewrite CM in C. destruct i as [|[|[|i]]]; try contradiction; destruct C as [C|[]]; injection C as <- <-; destruct R as [R|[]]; injection R as <-; eexists; split; reflexivity.
    + right. intros k c b C. rewrite CM in C. destruct i as [|[|[|i]]]; try contradiction; destruct C as [C|[]]; injection C as _ <- _; reflexivity.
Qed.

(** * With return codes on the wire *)
(** A connection that was dialled greets with a ping. With return codes of four bytes the client misreads the answer to it (C118): here
    the handler of the only server answers the first of four requests, with success, and the endpoint completes the fourth, with an error.
    All that [system] asks for holds, but that the connection is in step. *)
Definition C147_bad : list FleetModel.ev :=
  FleetProps.fup 1 ++ flat_map (fun r => [FleetModel.Send r; FleetModel.Take 1; FleetModel.Fetch 1; FleetModel.Write 1 true; FleetModel.Ep (ClientModel.W 1)]) [0; 1; 2; 3]%nat ++ [FleetModel.Resp 1 4 1 []; FleetModel.Deliver 1].
Definition C147_bad_pair (i : nat) : list PairModel.ev := match i with 1%nat => PairProps.bad_run | _ => [] end.
Theorem C147_return_codes_refuted : exists t s far, FleetModel.start 1 C147_bad = (t, Some s) /\ in_time t /\ PairSpec.proper_requests (fun _ => 4) (fun _ => []) /\
  (forall i, exists es p, PairModel.run RC4 (fun _ => 4) (fun _ => []) true (PairModel.p_init true None [] []) es = (far i, p) /\ PairSpec.proper_answers es /\ traffic (PairSpec.client (far i)) = traffic (FleetSpec.at_conn i t)) /\
  PairSpec.comps (far 1%nat) = [(0%nat, RC_OK, [])] /\ serves far 1 0 0%nat /\ FleetSpec.completions t = [(3%nat, Answer 1 [])].
Proof.
  destruct (FleetModel.start 1 C147_bad) as [t [s|]] eqn:E; [|exfalso; assert (X : snd (FleetModel.start 1 C147_bad) <> None) by (vm_compute; discriminate); rewrite E in X; now apply X].
  exists t, s, (fun i => fst (PairModel.run RC4 (fun _ => 4) (fun _ => []) true (PairModel.p_init true None [] []) (C147_bad_pair i))). assert (ET : t = fst (FleetModel.start 1 C147_bad)) by now rewrite E. split; [reflexivity|]. rewrite ET.
  split; [intro i; destruct i as [|[|i]]; (match goal with |- timely ?t => destruct (HolderProps.politeb_all t) as (_ & B & _); [vm_compute; reflexivity|exact B] end)|].
  split; [intro r; unfold u32_ok, PING, zlen; cbn; lia|]. split; [|split; [vm_compute; reflexivity|split; [split; [vm_compute; tauto|eexists; vm_compute; reflexivity]|vm_compute; reflexivity]]].
  intro i. exists (C147_bad_pair i). eexists. split; [apply surjective_pairing|]. destruct i as [|[|i]]; (split; [PairProps.answers_ok|vm_compute; reflexivity]).
Qed.
Print Assumptions C147_return_codes_refuted.
