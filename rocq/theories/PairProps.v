(** C118: a client connection and a server connection of this library, end to end. *)
From Coq Require Import ZArith List Bool Arith Lia Permutation.
Import ListNotations.
From Verif Require Import Base WireModel WireSpec WireWriterProofs WireReaderProofs WireProps PairModel PairSpec PairWire PairProofs PairLive.
From Verif Require HolderModel HolderSpec HolderProofs HolderPolite HolderProps PairLink ServerModel ServerSpec ServerProofs ServerTrace ServerEnd ServerIds ServerProps.
Open Scope Z_scope.

Lemma in_sync_rc rc dial es : in_sync rc dial es -> rc = RC0 \/ (rc = RC4 /\ dial = false).
Proof. intros [H|(H & D & _)]; [now left|right; now split]. Qed.
Lemma clean_all rc dial es : in_sync rc dial es -> proper_answers es -> Forall (clean rc) es.
Proof.
  intros S P. apply Forall_forall. intros e H. destruct e; cbn; try exact Logic.I.
  - destruct S as [S|(_ & _ & N)]; [exact S|contradiction].
  - destruct e; cbn; try exact Logic.I. exact (P _ _ _ H).
Qed.
(** every run ends in a state that satisfies the invariant, or crashes right after one *)
Lemma run_J rc m msg body dial csc ssc es t op : run rc msg body dial (p_init dial m csc ssc) es = (t, op) ->
  in_sync rc dial es -> proper_requests msg body -> proper_map m -> proper_answers es -> HolderSpec.timely (client t) ->
  exists p' t' cops sops D, J rc m msg body dial p' t' cops sops D /\ (op = Some p' /\ t' = t \/ op = None /\ t = t' ++ [SO (ServerModel.OPanic ServerModel.CloseOfClosed)]).
Proof.
  intros E S HR HM HA T. destruct (J_run rc m msg body dial HR HM (in_sync_rc _ _ _ S) es _ [] [] [] [] t op (J_init rc m msg body dial (in_sync_rc _ _ _ S) csc ssc) (clean_all _ _ _ S HA) E T) as [_ (p' & t' & c & s & D & H & Q)].
  exists p', t', c, s, D. split; [exact H|]. destruct Q as [[-> ->]|[-> ->]]; auto.
Qed.
Lemma panic_nothing t : client (t ++ [SO (ServerModel.OPanic ServerModel.CloseOfClosed)]) = client t /\ reads (t ++ [SO (ServerModel.OPanic ServerModel.CloseOfClosed)]) = reads t /\
  comps (t ++ [SO (ServerModel.OPanic ServerModel.CloseOfClosed)]) = comps t.
Proof. rewrite client_app, reads_app. unfold comps. rewrite server_app, ServerTrace.comps_app. cbn. now rewrite !app_nil_r. Qed.

(** ** fidelity *)
Lemma J_fidelity rc m msg body dial p t cops sops D : proper_requests msg body -> rc <> RC1 -> J rc m msg body dial p t cops sops D ->
  forall r code b, In (r, HolderModel.Answer code b) (dones t) ->
  exists k id c, nth_error (sends t) k = Some (id, r) /\ In (k, mkReq (msg r) id (body r)) (reads t) /\ In (k, c, b) (comps t) /\ code = code_seen rc m c.
Proof.
  intros HR R1 H r code b I. destruct (PairLink.k_done _ _ _ (cr_k (j_cr H)) r code b I) as (k & id & N & Q).
  apply in_flat_map in Q. destruct Q as (y & Y & Q). unfold to_ans in Q. destruct (ServerModel.res_req y) as [k'|] eqn:RR; [|easy]. destruct Q as [Q|[]]. injection Q as -> QC QB.
  assert (IY : In y D) by (rewrite <- (firstn_skipn (cread p) D); apply in_or_app; now left).
  destruct (D_facts _ _ _ _ _ _ _ _ _ _ _ _ H IY RR) as (c & b' & YE & CM & L & _). subst y. cbn [ServerModel.res_body ServerModel.res_code] in *. subst b'.
  destruct (SR_nth _ _ _ _ _ _ _ _ _ _ k H L) as (id' & r' & N' & SQ). unfold sends in N'. rewrite N in N'. injection N' as <- <-.
  exists k, id, c. split; [exact N|]. split; [|split; [exact CM|]].
  - rewrite (sr_r (j_sr H)). apply in_map_iff. exists k. split; [|apply in_seq; lia]. rewrite SQ. reflexivity.
  - subst code. unfold code_seen. destruct rc; [reflexivity|congruence|reflexivity].
Qed.
(** An answer that a client's request gets is the answer that the server's handler gave to that very request: the
    request was sent as the k-th, the handler's k-th request has its type, id and body, and the handler completed it
    with the body and (if codes are sent) the code the client sees. This is so for every schedule of all goroutines of
    both ends, every fragmentation of the two streams and every failure of a socket. *)
Theorem C118_answers_come_from_the_handler_partial : forall rc m msg body dial csc ssc es t op,
  run rc msg body dial (p_init dial m csc ssc) es = (t, op) ->
  in_sync rc dial es -> proper_requests msg body -> proper_map m -> proper_answers es -> HolderSpec.timely (client t) ->
  forall r code b, In (r, HolderModel.Answer code b) (dones t) ->
  exists k id c, nth_error (sends t) k = Some (id, r) /\ In (k, mkReq (msg r) id (body r)) (reads t) /\ In (k, c, b) (comps t) /\ code = code_seen rc m c.
Proof.
  intros rc m msg body dial csc ssc es t op E S HR HM HA T r code b I. destruct (run_J _ _ _ _ _ _ _ _ _ _ E S HR HM HA T) as (p' & t' & c & s & D & H & Q).
  assert (R1 : rc <> RC1) by (destruct (in_sync_rc _ _ _ S) as [-> |[-> _]]; discriminate).
  destruct Q as [[_ <-]|[_ ->]]; [now apply (J_fidelity _ _ _ _ _ _ _ _ _ _ HR R1 H)|].
  destruct (panic_nothing t') as (C1 & C2 & C3). unfold dones, sends in *. rewrite C1 in *. rewrite C2, C3. now apply (J_fidelity _ _ _ _ _ _ _ _ _ _ HR R1 H).
Qed.
Print Assumptions C118_answers_come_from_the_handler_partial.

(** The requests that the server's handlers see are those that the client sent, unchanged, in order, each once. *)
Theorem C118_handlers_see_what_was_sent_partial : forall rc m msg body dial csc ssc es t op,
  run rc msg body dial (p_init dial m csc ssc) es = (t, op) ->
  in_sync rc dial es -> proper_requests msg body -> proper_map m -> proper_answers es -> HolderSpec.timely (client t) ->
  prefix (map snd (reads t)) (map (fun w => mkReq (msg (snd w)) (fst w) (body (snd w))) (sends t)) /\ map fst (reads t) = seq 0 (length (reads t)) /\
  NoDup (map snd (sends t)) /\ NoDup (map (fun c => fst (fst c)) (comps t)) /\ forall k c b, In (k, c, b) (comps t) -> In k (map fst (reads t)).
Proof.
  intros rc m msg body dial csc ssc es t op E S HR HM HA T. destruct (run_J _ _ _ _ _ _ _ _ _ _ E S HR HM HA T) as (p' & t' & c & s & D & H & Q).
  assert (G : HolderSpec.timely (client t') -> prefix (map snd (reads t')) (map (fun w => mkReq (msg (snd w)) (fst w) (body (snd w))) (sends t')) /\ map fst (reads t') = seq 0 (length (reads t')) /\
    NoDup (map snd (sends t')) /\ NoDup (map (fun c => fst (fst c)) (comps t')) /\ forall k c b, In (k, c, b) (comps t') -> In k (map fst (reads t'))).
  { clear T. intro T. pose proof (sr_r (j_sr H)) as R. pose proof (ServerTrace.RI_reach _ _ _ (j_s H)) as RI. split; [|split; [|split; [|split]]].
    - rewrite R, map_map. cbn [snd]. pose proof (cw_f (j_cw H)) as F. rewrite <- (firstn_skipn (sread p') (requests_of c)), filter_app, (sr_f (j_sr H)) in F.
      eexists. symmetry. rewrite (map_ext (fun x => sreq p' x) (sreq p')) by reflexivity. exact F.
    - rewrite R, map_map, map_length, seq_length. cbn [fst]. apply map_id.
    - destruct (HolderProps.reach_polite _ _ (j_c H) (PairLink.k_pol _ _ _ (cr_k (j_cr H))) T) as (_ & CI & _). apply CI.
    - exact (ServerTrace.ri_once _ _ _ RI).
    - intros k cd b I. rewrite R, map_map. cbn [fst]. rewrite map_id. apply in_seq. split; [lia|]. cbn. apply (ServerTrace.ri_lt _ _ _ RI). apply (ServerTrace.ri_comp _ _ _ RI). apply in_map_iff. exists (k, cd, b). now split. }
  destruct Q as [[_ <-]|[_ ->]]; [now apply G|]. destruct (panic_nothing t') as (C1 & C2 & C3). unfold sends in *. rewrite C1, C2, C3 in *. now apply G.
Qed.
Print Assumptions C118_handlers_see_what_was_sent_partial.

(** The client does not crash; the only crash there is is the one at the end of a server connection (C46). *)
Theorem C118_client_does_not_crash_partial : forall rc m msg body dial csc ssc es t,
  run rc msg body dial (p_init dial m csc ssc) es = (t, None) ->
  in_sync rc dial es -> proper_requests msg body -> proper_map m -> proper_answers es -> HolderSpec.timely (client t) ->
  exists t', t = t' ++ [SO (ServerModel.OPanic ServerModel.CloseOfClosed)].
Proof.
  intros rc m msg body dial csc ssc es t E S HR HM HA T. destruct (run_J _ _ _ _ _ _ _ _ _ _ E S HR HM HA T) as (p' & t' & c & s & D & H & [[Q _]|[_ Q]]); [discriminate|now exists t'].
Qed.
Print Assumptions C118_client_does_not_crash_partial.

(** ** every answer arrives *)
Lemma reach_run m s t : ServerProofs.reach m s t -> exists es, ServerModel.run (ServerModel.s_init m) es = (t, Some s).
Proof.
  induction 1 as [|s t e o s' R [es E] S]; [now exists []|]. exists (es ++ [e]).
  assert (G : forall es s0 t0, ServerModel.run s0 es = (t0, Some s) -> ServerModel.run s0 (es ++ [e]) = (t0 ++ o, Some s')).
  { clear - S. induction es as [|x es IH]; intros s0 t0 E.
    - injection E as <- ->. cbn [app ServerModel.run]. rewrite S. now rewrite app_nil_r.
    - cbn [app ServerModel.run] in *. destruct (ServerModel.step s0 x) as [o1 [s1|]]; [|discriminate]. destruct (ServerModel.run s1 es) as [o2 os2] eqn:Q. injection E as <- ->. rewrite (IH _ _ Q). now rewrite app_assoc. }
  now apply G.
Qed.
Lemma fst_unique (l : list (nat * Z * list Z)) k c b c' b' : NoDup (map (fun c => fst (fst c)) l) -> In (k, c, b) l -> In (k, c', b') l -> c = c' /\ b = b'.
Proof.
  induction l as [|[[k0 c0] b0] l IH]; [easy|]. cbn [map fst]. intros N H H'. inversion_clear N as [|? ? N1 N2]. destruct H as [H|H], H' as [H'|H'].
  - injection H as -> -> ->. injection H' as -> ->. now split.
  - injection H as -> -> ->. elim N1. apply in_map_iff. exists (k, c', b'). now split.
  - injection H' as -> -> ->. elim N1. apply in_map_iff. exists (k, c, b). now split.
  - now apply IH.
Qed.
(** Once the server's goroutines have nothing left to do (which happens after finitely many steps, C45), with its
    connection up and its queues never full, the client gets every answer the handlers gave, by just reading on:
    nothing stays behind in a buffer, a queue or on the way. The answers of requests that had not completed in another
    way (C40) are what the handler answered. *)
Theorem C118_every_answer_arrives_partial : forall rc m msg body dial csc ssc es t p,
  run rc msg body dial (p_init dial m csc ssc) es = (t, Some p) ->
  in_sync rc dial es -> proper_requests msg body -> proper_map m -> proper_answers es -> HolderSpec.timely (client t) ->
  ServerSpec.stuck (srv p) -> ServerSpec.at_most_128 (server t) -> ~ In ServerModel.OClosed (server t) -> ph p = Running -> HolderModel.open (cli p) = true ->
  exists n t' p', run rc msg body dial p (read_on (length (w_out (swr p))) n) = (t', Some p') /\ sends t' = [] /\
    forall k c b, In (k, c, b) (comps t) -> exists id r x, nth_error (sends t) k = Some (id, r) /\ In (r, x) (dones (t ++ t')) /\
      forall code b', x = HolderModel.Answer code b' -> code = code_seen rc m c /\ b' = b.
Proof.
  intros rc m msg body dial csc ssc es t p E S HR HM HA T ST A NC PH OP. pose proof (in_sync_rc _ _ _ S) as RC.
  assert (R1 : rc <> RC1) by (destruct RC as [-> |[-> _]]; discriminate).
  destruct (run_J _ _ _ _ _ _ _ _ _ _ E S HR HM HA T) as (p0 & t0 & cops & sops & D & H & [[Q Q2]|[Q _]]); [|discriminate]. injection Q as <-. subst t0.
  pose proof (flushed_run rc m msg body dial HR HM RC es _ [] [] [] [] _ _ (J_init rc m msg body dial RC csc ssc) (clean_all _ _ _ S HA) E T (fun _ => eq_refl)) as FL.
  pose proof (ServerEnd.stuck_cases _ _ _ (j_s H) ST) as SC. destruct (reach_run _ _ _ (j_s H)) as [ses SE].
  destruct (ServerProps.C45_nothing_is_lost_partial _ _ _ _ SE (sr_d (j_sr H))) as [_ ANS]. destruct (ANS ST A NC) as (_ & _ & ALL). clear ANS.
  assert (WR : ServerModel.wp (srv p) = ServerModel.WRecv).
  { destruct SC as [(_ & _ & K & _)|[(_ & W & _)|(F & _ & JM)]]; [|exact W|].
    - elim NC. now apply (ServerIds.DI_reach _ _ _ (j_s H)).
    - destruct (ServerEnd.room _ _ _ (j_s H) A F) as (B & _ & _ & P). destruct JM as [JM|[id JM]]; [congruence|]. now apply P in JM. }
  assert (AL : alive (srv p) = true) by (unfold alive; now rewrite WR).
  assert (DW : D = ServerSpec.writes (server t)) by (destruct (sw_x (j_sw H)) as [X|[X _]]; [exact X|congruence]).
  pose proof (cr_n (j_cr H)) as CN.
  destruct (read_on_run rc m msg body dial HR RC (length D - cread p) p t cops sops D H T PH OP AL (FL WR) ltac:(lia)) as (t' & p' & cops' & E' & H' & T' & S' & RD & CR & SV).
  exists (length D - cread p)%nat, t', p'. split; [exact E'|]. split; [exact S'|]. intros k c b IC.
  destruct (ALL k c b IC) as (id0 & _ & W). rewrite <- DW in W.
  destruct (D_facts _ _ _ _ _ _ _ _ _ _ _ _ H W eq_refl) as (c1 & b1 & _ & _ & L & _). destruct (SR_nth _ _ _ _ _ _ _ _ _ _ k H L) as (id & r & N & SQ).
  assert (SS : HolderSpec.wires (client (t ++ t')) = sends t) by (unfold sends in *; now rewrite client_app, HolderProofs.wires_app, S', app_nil_r).
  destruct (HolderProps.reach_polite _ _ (j_c H') (PairLink.k_pol _ _ _ (cr_k (j_cr H'))) T') as (_ & CI & PI).
  assert (IR : In r (map snd (HolderSpec.wires (client (t ++ t'))))) by (rewrite SS; apply in_map_iff; exists (id, r); split; [reflexivity|]; now apply nth_error_In in N).
  assert (DN : exists x, In (r, x) (dones (t ++ t'))).
  { destruct (HolderProps.sent_state _ _ _ CI IR) as [X|(w & i & F)]; [exact X|]. exfalso. destruct (HolderPolite.pi_fly _ _ PI _ _ _ F) as [(x & X1 & X2)|(a & d & X)]; [|congruence].
    destruct (HolderPolite.un_wires _ _ X1) as [B1 B2]. assert (B3 := N). rewrite <- SS in B3. subst r. pose proof (HolderProofs.nth_wires_fly _ _ _ _ _ _ (HolderProofs.ci_once _ _ CI) B2 B3) as EK.
    assert (LK : (k < length (HolderSpec.wires (client (t ++ t'))))%nat) by (apply nth_error_Some; congruence).
    apply (proj2 (PairLink.k_un _ _ _ (cr_k (j_cr H')) k LK)).
    - apply in_map_iff. exists x. split; [|exact X1]. lia.
    - rewrite CR, firstn_all. unfold PairLink.nums. apply in_map_iff. eexists (k, _, b).
      split; [reflexivity|]. apply in_flat_map. exists (ServerModel.mkRes id0 (ServerModel.wire_code m c) b (Some k)). split; [exact W|]. cbn. left. reflexivity. }
  destruct DN as [x X]. exists id, r, x. split; [exact N|]. split; [exact X|]. intros code b' ->.
  destruct (J_fidelity _ _ _ _ _ _ _ _ _ _ HR R1 H' r code b' X) as (k' & id' & c' & N' & _ & C' & ->).
  assert (k' = k) as ->. { pose proof (HolderProofs.ci_once _ _ CI) as ON. rewrite <- SS in N. exact (HolderProofs.nth_wires_fly _ _ _ _ _ _ ON N' N). }
  pose proof (ServerTrace.ri_once _ _ _ (ServerTrace.RI_reach _ _ _ (j_s H'))) as ND.
  assert (IC' : In (k, c, b) (comps (t ++ t'))) by (unfold comps in *; rewrite server_app, ServerTrace.comps_app; apply in_or_app; now left).
  destruct (fst_unique _ _ _ _ _ _ ND IC' C') as [-> ->]. now split.
Qed.
Print Assumptions C118_every_answer_arrives_partial.

(** ** the case that is excluded: return codes of 4 bytes, and pings *)
Definition W n := repeat (Server ServerModel.Writer) n.
Definition all_there := [1000%nat].
Definition send (r : nat) := [Client HolderModel.Prefetch; Client (HolderModel.Send r)].
Definition rdreq := [SRead [7%nat; 3%nat; 990%nat]; Server ServerModel.Reader].
Definition dial_up := [Dial; SRead all_there; Server ServerModel.Reader] ++ W 6 ++ [Hello all_there].
Definition next_answer (cuts : list nat) := [CRead cuts; Client HolderModel.Deliver].
(** The server answers the ping that the client sends when it connects with a frame of 16 bytes, of which the client
    reads 12: from then on it takes each answer for something else. Here the handler answers the first of four requests,
    and the client completes the fourth with an error. *)
Definition bad_run := dial_up ++ send 0 ++ send 1 ++ send 2 ++ send 3 ++ [CFlush] ++ rdreq ++ [Server (ServerModel.Complete 0%nat 0 []); Server (ServerModel.Responder 0)] ++ W 6 ++ next_answer all_there.
Theorem C118_rc4_dialled_refuted : exists msg body es t p, run RC4 msg body true (p_init true None [] []) es = (t, Some p) /\
  proper_requests msg body /\ proper_map None /\ proper_answers es /\ HolderSpec.timely (client t) /\ ~ In CPing es /\
  map snd (sends t) = [0; 1; 2; 3]%nat /\ comps t = [(0%nat, 0, [])] /\ dones t = [(3%nat, HolderModel.Answer 1 [])] /\ code_seen RC4 None 0 = 0.
Proof.
  exists (fun _ => 4), (fun _ => []), bad_run. do 2 eexists. split; [vm_compute; reflexivity|].
  split; [intro r; unfold u32_ok, PING, zlen; cbn; lia|]. split; [exact Logic.I|]. split; [|split; [|split; [|now repeat split]]].
  - intros r c b H. cbn in H. repeat (destruct H as [H|H]; [try discriminate H; injection H as <- <- <-; unfold u32_ok, zlen; cbn; lia|]). destruct H.
  - apply HolderProps.politeb_all. vm_compute. reflexivity.
  - cbn. intuition discriminate.
Qed.
Print Assumptions C118_rc4_dialled_refuted.

(** A request whose type is that of pings (0xFF00) does not reach a handler: the server connection answers it itself,
    and the client's request completes with success although nobody has seen it. *)
Definition ping_run := send 0 ++ [CFlush] ++ rdreq ++ W 6 ++ next_answer all_there.
Theorem C118_request_of_type_ping_refuted : exists body t p, run RC0 (fun _ => PING) body false (p_init false None [] []) ping_run = (t, Some p) /\
  proper_map None /\ proper_answers ping_run /\ HolderSpec.timely (client t) /\
  sends t = [(1, 0%nat)] /\ reads t = [] /\ comps t = [] /\ dones t = [(0%nat, HolderModel.Answer 0 [])].
Proof.
  exists (fun _ => [1; 2; 3]). do 2 eexists. split; [vm_compute; reflexivity|]. split; [exact Logic.I|]. split; [|split; [apply HolderProps.politeb_all; vm_compute; reflexivity|now repeat split]].
  intros r c b H. cbn in H. repeat (destruct H as [H|H]; [try discriminate H; injection H as <- <- <-; unfold u32_ok, zlen; cbn; lia|]). destruct H.
Qed.
Print Assumptions C118_request_of_type_ping_refuted.

(** ** examples: the hypotheses are met *)
Definition ex_msg (r : nat) : Z := match r with 0%nat => 1 | 1%nat => 2 | _ => 3 end.
Definition ex_body (r : nat) : list Z := match r with 0%nat => [7] | 1%nat => [8; 9] | _ => [] end.
Lemma ex_proper : proper_requests ex_msg ex_body.
Proof. intro r. unfold ex_msg, ex_body, u32_ok, PING, zlen. destruct r as [|[|r]]; cbn; lia. Qed.
Definition answered := [Server (ServerModel.Complete 1%nat 0 [5; 6]); Server (ServerModel.Complete 0%nat 0x103 []); Server (ServerModel.Responder 0); Server (ServerModel.Responder 0)] ++ W 12.
(** without return codes, dialled, with a ping among the requests *)
Definition ex0 := dial_up ++ send 0 ++ send 1 ++ [CPing] ++ send 2 ++ [CFlush] ++ rdreq ++ rdreq ++ rdreq ++ rdreq ++ answered.
(** with return codes and without pings *)
Definition ex4 := send 0 ++ send 1 ++ send 2 ++ [CFlush] ++ rdreq ++ rdreq ++ rdreq ++ answered.
Definition reading := next_answer [5; 60]%nat ++ next_answer all_there ++ next_answer all_there.
Ltac answers_ok := let H := fresh in intros ? ? ? H; cbn in H; repeat (destruct H as [H|H]; [try discriminate H; injection H as <- <- <-; unfold u32_ok, zlen; cbn; lia|]); destruct H.
Example C118_ex_rc0 : exists t p, run RC0 ex_msg ex_body true (p_init true None [] []) (ex0 ++ reading) = (t, Some p) /\
  in_sync RC0 true (ex0 ++ reading) /\ proper_requests ex_msg ex_body /\ proper_map None /\ proper_answers (ex0 ++ reading) /\ HolderSpec.timely (client t) /\
  map snd (sends t) = [0; 1; 2]%nat /\ comps t = [(1%nat, 0, [5; 6]); (0%nat, 0x103, [])] /\ dones t = [(1%nat, HolderModel.Answer 0 [5; 6]); (0%nat, HolderModel.Answer 0 [])].
Proof.
  do 2 eexists. split; [vm_compute; reflexivity|]. split; [now left|]. split; [exact ex_proper|]. split; [exact Logic.I|]. split; [answers_ok|]. split; [apply HolderProps.politeb_all; vm_compute; reflexivity|]. now repeat split.
Qed.
Example C118_ex_rc4 : exists t p, run RC4 ex_msg ex_body false (p_init false None [] []) (ex4 ++ reading) = (t, Some p) /\
  in_sync RC4 false (ex4 ++ reading) /\ proper_answers (ex4 ++ reading) /\ HolderSpec.timely (client t) /\
  map snd (sends t) = [0; 1; 2]%nat /\ comps t = [(1%nat, 0, [5; 6]); (0%nat, 0x103, [])] /\ dones t = [(1%nat, HolderModel.Answer 0 [5; 6]); (0%nat, HolderModel.Answer 0x102 [])] /\ code_seen RC4 None 0x103 = 0x102.
Proof.
  do 2 eexists. split; [vm_compute; reflexivity|]. split; [right; repeat split; cbn; intuition discriminate|]. split; [answers_ok|]. split; [apply HolderProps.politeb_all; vm_compute; reflexivity|]. now repeat split.
Qed.
(** the answers are on their way and the server's goroutines have nothing to do; nothing was read yet *)
Example C118_ex_arrives : exists t p, run RC4 ex_msg ex_body false (p_init false None [] []) ex4 = (t, Some p) /\ in_sync RC4 false ex4 /\ proper_answers ex4 /\ HolderSpec.timely (client t) /\
  ServerSpec.stuck (srv p) /\ ServerSpec.at_most_128 (server t) /\ ~ In ServerModel.OClosed (server t) /\ ph p = Running /\ HolderModel.open (cli p) = true /\
  comps t = [(1%nat, 0, [5; 6]); (0%nat, 0x103, [])] /\ dones t = [].
Proof.
  do 2 eexists. split; [vm_compute; reflexivity|]. split; [right; repeat split; cbn; intuition discriminate|]. split; [answers_ok|]. split; [apply HolderProps.politeb_all; vm_compute; reflexivity|].
  split; [ServerProps.stuck_now|]. split; [apply ServerProps.few_ok; cbn; lia|]. split; [cbn; intuition discriminate|]. now repeat split.
Qed.
Example C118_ex_arrives_dialled : exists t p, run RC0 ex_msg ex_body true (p_init true None [] []) ex0 = (t, Some p) /\
  ServerSpec.stuck (srv p) /\ ServerSpec.at_most_128 (server t) /\ ~ In ServerModel.OClosed (server t) /\ ph p = Running /\ HolderModel.open (cli p) = true /\ dones t = [].
Proof.
  do 2 eexists. split; [vm_compute; reflexivity|]. split; [ServerProps.stuck_now|]. split; [apply ServerProps.few_ok; cbn; lia|]. split; [cbn; intuition discriminate|]. now repeat split.
Qed.
