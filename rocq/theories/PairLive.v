(** What the server has written and flushed can be read: nothing is kept back on the way to the client. *)
From Coq Require Import ZArith List Bool Arith Lia Permutation.
Import ListNotations.
From Verif Require Import Base WireModel WireSpec WireWriterProofs WireReaderProofs WireProps PairModel PairSpec PairWire PairProofs.
From Verif Require HolderModel HolderSpec HolderProofs HolderPolite HolderProps PairLink ServerModel ServerSpec ServerProofs ServerTrace ServerEnd ServerProps.
Open Scope Z_scope.

Lemma one_piece b : carries (pieces [length b] b) b.
Proof. cbn [pieces]. rewrite firstn_all. rewrite <- (app_nil_r b) at 2. constructor. constructor. Qed.
Lemma read_some rc ps n r p : rc <> RC1 -> rinv r -> Forall (response_ok rc) ps -> strm r (concat (map (response_frame rc) ps)) -> nth_error ps n = Some p ->
  forall fuel, (n < fuel)%nat -> nth_error (fst (read_responses rc fuel r)) n = Some (seen rc p).
Proof.
  intros R1 I F S N fuel L. assert (LN : (n < length ps)%nat) by (apply nth_error_Some; congruence).
  rewrite <- (firstn_skipn (Datatypes.S n) ps), map_app, concat_app in S.
  assert (F1 : Forall (response_ok rc) (firstn (Datatypes.S n) ps)) by (rewrite <- (firstn_skipn (Datatypes.S n) ps) in F; apply Forall_app in F; apply F).
  destruct (read_responses_ok rc (firstn (Datatypes.S n) ps) R1 fuel r _ I F1 S) as (r' & _ & _ & E); [rewrite firstn_length; lia|].
  rewrite E. destruct (read_responses rc (fuel - length (firstn (Datatypes.S n) ps)) r') as [l e]. cbn [fst]. rewrite nth_error_app1 by (rewrite map_length, firstn_length; lia).
  rewrite nth_error_map, (firstn_nth n ps p N). rewrite nth_error_app2 by (rewrite firstn_length; lia). rewrite firstn_length, Nat.min_l, Nat.sub_diag by lia. reflexivity.
Qed.
(** with everything there, the n-th response is read *)
Lemma all_read rc dial ops w n p : rc <> RC1 -> (rc = RC4 -> Forall (fun p => p_msg p <> PING) (responses_of ops)) ->
  wrote rc ops w true -> w_out w = sent w -> Forall (response_call rc) ops ->
  (dial = true -> exists p, nth_error (responses_of ops) 0 = Some p /\ seen rc p = mkRes PING PING_ID RC_OK []) -> (dial = true -> (1 <= n)%nat) ->
  nth_error (responses_of ops) n = Some p ->
  nth_error (client_reads dial rc (S n) (r_init (pieces [length (w_out w)] (w_out w)))) n = Some (seen rc p).
Proof.
  intros R1 N4 (ds & F & _ & W) WO K D0 D1 N. destruct (W eq_refl) as [_ SE]. destruct (responses_emitted rc ops ds R1 N4 K F) as [Q E]. rewrite WO, SE, E.
  pose proof (one_piece (concat (map (response_frame rc) (responses_of ops)))) as C. pose proof (strm_init _ _ C) as S. set (r0 := r_init _) in *. pose proof (rinv_init (pieces [length (concat (map (response_frame rc) (responses_of ops)))] (concat (map (response_frame rc) (responses_of ops))))) as I. fold r0 in I.
  unfold client_reads. destruct dial.
  - destruct (D0 eq_refl) as (q & Q1 & Q2). specialize (D1 eq_refl). destruct (responses_of ops) as [|p0 ps]; [discriminate|]. injection Q1 as ->. inversion Q as [|? ? K1 K2]; subst.
    cbn [map concat] in S. unfold seen in Q2. injection Q2 as M1 M2 M3 M4. destruct q as [pm pi pc pb]. cbn [p_msg p_id p_body p_code] in *. subst pm pi pb.
    assert (FR : response_frame rc (mkRes PING PING_ID pc []) = header PING 0 PING_ID) by reflexivity. rewrite FR in S. destruct (Read_prefix _ _ _ I S) as (r1 & h & E3 & I1 & _ & _ & B1 & S1).
    unfold hr_ping. rewrite header_length in E3. rewrite E3. cbn [r_bind]. rewrite B1.
    assert (U : (u32_at (header PING 0 PING_ID) 0 =? PING) && (u32_at (header PING 0 PING_ID) 8 =? PING_ID) = true) by reflexivity. rewrite U. destruct n as [|n]; [lia|]. cbn [nth_error] in *. apply (read_some rc ps n r1 p); try assumption. lia.
  - apply (read_some rc (responses_of ops) n r0 p); try assumption. lia.
Qed.

(** the write loop waits for answers only after a flush *)
Definition flushed (p : pair) : Prop := ServerModel.wp (srv p) = ServerModel.WRecv -> w_out (swr p) = sent (swr p).
Lemma c_step_server rc msg body p e o p' : c_step rc msg body p e = (o, Some p') -> srv p' = srv p /\ swr p' = swr p.
Proof.
  unfold c_step. destruct (HolderModel.step (cli p) e) as [o1 [c|]]; [|discriminate]. intro E. injection E as _ E.
  assert (G : forall l q, srv q = srv p /\ swr q = swr p -> forall q', fold_left (fun p x => match p, x with Some p, HolderModel.OWire id r => c_write rc p (OpReq (sentq msg body (id, r))) | p, _ => p end) l (Some q) = Some q' -> srv q' = srv p /\ swr q' = swr p).
  { induction l as [|x l IH]; intros q Q q' H; [cbn in H; injection H as <-; exact Q|]. cbn [fold_left] in H. destruct x as [id r| | |]; try (now apply (IH q)).
    unfold c_write in H. destruct (hw_op _ _ _); [now apply (IH (set_cw q w true))|now apply (IH (set_cw q w false))|].
    exfalso. clear - H. induction l as [|y l IH]; [discriminate|]. cbn in H. destruct y; now apply IH. }
  now apply (G o1 (set_c p c)).
Qed.
Lemma to_recv s e o s' : ServerProofs.SI s -> silent s e -> ServerModel.step s e = (o, Some s') -> ServerModel.wp s' = ServerModel.WRecv -> ServerModel.wp s = ServerModel.WRecv.
Proof.
  intros I SI E W. apply ServerProofs.step_eff in E; [|exact I]. destruct E; cbn [silent] in SI; try contradiction; try exact W; try discriminate W. rewrite H in SI. contradiction.
Qed.
Section Live.
Variable rc : rctype.
Variable m : option ServerModel.rcmap.
Variable msg : HolderModel.rid -> Z.
Variable body : HolderModel.rid -> list Z.
Variable dial : bool.
Hypothesis HR : proper_requests msg body.
Hypothesis HM : proper_map m.
Hypothesis RC : rc = RC0 \/ (rc = RC4 /\ dial = false).
Lemma flushed_silent p t cops sops D e o p' : J rc m msg body dial p t cops sops D -> silent (srv p) e -> s_step p e = (o, Some p') -> flushed p -> flushed p'.
Proof.
  intros H S E F W. unfold s_step in E. destruct (ServerModel.step (srv p) e) as [o1 [s'|]] eqn:Q; [|discriminate]. injection E as <- <-. cbn [srv swr set_s] in *. apply F.
  exact (to_recv _ _ _ _ (ServerProofs.SI_reach _ _ _ (j_s H)) S Q W).
Qed.
Lemma flushed_step p t cops sops D e o p' : J rc m msg body dial p t cops sops D -> step rc msg body dial p e = (o, Some p') -> flushed p -> flushed p'.
Proof.
  intros H E F. assert (SAME : srv p' = srv p /\ swr p' = swr p -> flushed p') by (intros [A B]; unfold flushed; now rewrite A, B).
  assert (SKIP : ok p = (o, Some p') -> flushed p') by (intro X; injection X as <- <-; exact F).
  assert (CWS : forall q o1 q', c_write rc q o1 = Some q' -> srv q' = srv q /\ swr q' = swr q) by (intros q o1 q' X; unfold c_write in X; destruct (hw_op _ _ _); try discriminate; injection X as <-; now split).
  destruct e as [|cuts|e| | |cuts|e|cuts]; cbn [step] in E.
  - destruct (ph p); try (now apply SKIP). destruct (c_write rc p OpPing) as [p1|] eqn:C1; [|discriminate]. destruct (CWS _ _ _ C1) as [A1 B1]. destruct (cok p1).
    + destruct (c_write rc p1 OpFlush) as [p2|] eqn:C2; [|discriminate]. destruct (CWS _ _ _ C2) as [A2 B2]. injection E as <- <-. apply SAME. cbn. split; congruence.
    + injection E as <- <-. apply SAME. now split.
  - destruct (ph p); try (now apply SKIP). destruct (cok p); [|now apply SKIP]. destruct (hr_ping _); try (now apply SKIP). injection E as <- <-. apply SAME. now split.
  - destruct (ph p); try (now apply SKIP). destruct e; try (now apply SKIP); try (destruct (cok p); [|now apply SKIP]); apply SAME; now apply (c_step_server _ _ _ _ _ _ _ E).
  - destruct (ph p); try (now apply SKIP). destruct (_ && _); [|now apply SKIP]. destruct (c_write rc p OpPing) as [p1|] eqn:C1; [|discriminate]. injection E as <- <-. apply SAME. exact (CWS _ _ _ C1).
  - destruct (ph p); try (now apply SKIP). destruct (cok p); [|now apply SKIP]. destruct (c_write rc p OpFlush) as [p1|] eqn:C1; [|discriminate]. injection E as <- <-. apply SAME. exact (CWS _ _ _ C1).
  - destruct (ph p); try (now apply SKIP). destruct (HolderModel.reader _); try (now apply SKIP). destruct (HolderModel.open _); try (now apply SKIP). destruct (nth_error _ _) as [x|]; [|now apply SKIP]. cbv zeta in E.
    destruct (_ && _); [injection E as <- <-; apply SAME; now split|]. apply SAME. destruct (c_step_server _ _ _ _ _ _ _ E) as [A B]. now split.
  - assert (GO : silent (srv p) e -> s_step p e = (o, Some p') -> flushed p') by (intros S Q; exact (flushed_silent _ _ _ _ _ _ _ _ H S Q F)).
    destruct e; try (now apply SKIP); try (apply GO; [exact Logic.I|exact E]). destruct (ServerModel.wp (srv p)) eqn:WP; try (apply GO; [cbn; now rewrite WP|exact E]).
    + (* the flush before waiting *) unfold s_write in E. assert (WI : winv (swr p)) by (destruct (sw_w (j_sw H)) as (ds & _ & _ & X); unfold alive in X; rewrite WP in X; now apply X).
      pose proof (flush_post (swr p) WI) as FP. cbn [hw_op] in E. destruct (w_flush (swr p)) as [w|w|]; [| |contradiction]; unfold s_step in E; cbn [srv set_sw ServerModel.step] in E.
      * unfold ServerModel.step_writer in E. rewrite WP in E. injection E as <- <-. intros _. cbn [swr set_s set_sw]. destruct FP as (_ & SE & _ & _ & O). congruence.
      * rewrite WP in E. injection E as <- <-. intro X. discriminate X.
    + unfold s_write in E. destruct (hw_op _ _ _); [| |discriminate]; unfold s_step in E; cbn [srv set_sw ServerModel.step] in E; unfold ServerModel.step_writer in E; rewrite WP in E; injection E as <- <-; intro X; discriminate X.
    + unfold s_write in E. destruct (hw_op _ _ _); [| |discriminate]; unfold s_step in E; cbn [srv set_sw ServerModel.step] in E; unfold ServerModel.step_writer in E; rewrite WP in E; injection E as <- <-; intro X; discriminate X.
  - destruct (ServerModel.rp (srv p)) eqn:RP; try (now apply SKIP). destruct (nth_error _ _) as [q|]; [|now apply SKIP]. cbv zeta in E. unfold s_step in E. cbn [srv set_sread set_sreq ServerModel.step] in E. rewrite RP in E.
    destruct (q_msg q =? PING); injection E as <- <-; exact F.
Qed.
Lemma flushed_run es : forall p t cops sops D o p', J rc m msg body dial p t cops sops D -> Forall (clean rc) es -> run rc msg body dial p es = (o, Some p') -> HolderSpec.timely (client (t ++ o)) -> flushed p -> flushed p'.
Proof.
  induction es as [|e es IH]; intros p t cops sops D o p' H CL E T F; [now injection E as _ <-|]. inversion_clear CL as [|? ? C1 C2]. cbn [run] in E. destruct (step rc msg body dial p e) as [o1 [p1|]] eqn:S; [|discriminate].
  destruct (run rc msg body dial p1 es) as [o2 op2] eqn:R. injection E as <- ->. rewrite app_assoc in T.
  assert (T1 : HolderSpec.timely (client (t ++ o1))) by (rewrite client_app in T; now apply HolderProofs.timely_pre in T).
  destruct (J_step _ _ _ _ _ HR HM RC _ _ _ _ _ _ _ _ H C1 S T1) as (cops1 & sops1 & D1 & H1). apply (IH p1 (t ++ o1) cops1 sops1 D1 o2); try assumption. exact (flushed_step _ _ _ _ _ _ _ _ H S F).
Qed.

(** the client reads on: each answer written comes out, one after the other *)
Lemma read_on_S N n : read_on N (S n) = Client HolderModel.Deliver :: CRead [N] :: read_on N n.
Proof. unfold read_on. cbn [seq flat_map app]. do 2 f_equal. f_equal. rewrite <- seq_shift. generalize (seq 0 n). intro l. induction l; cbn; congruence. Qed.
Lemma timely_quiet h o : HolderSpec.wires o = [] -> HolderSpec.timely h -> HolderSpec.timely (h ++ o).
Proof.
  induction o as [|x o IH] using rev_ind; intros W T; [now rewrite app_nil_r|]. rewrite HolderProofs.wires_app in W. apply app_eq_nil in W. destruct W as [W1 W2]. rewrite app_assoc. specialize (IH W1 T).
  intros p i r q E. destruct q as [|y q _] using rev_ind; [apply app_inj_tail in E; destruct E as [_ ->]; discriminate|]. rewrite app_comm_cons, app_assoc in E. apply app_inj_tail in E. destruct E as [E _]. exact (IH p i r q E).
Qed.
Lemma deliver_shape c o c' : HolderModel.step c HolderModel.Deliver = (o, Some c') -> HolderModel.open c' = HolderModel.open c /\ HolderSpec.wires o = [].
Proof.
  cbn [HolderModel.step]. destruct (HolderModel.reader c) as [[[ir code] b]|]; [|intro E; injection E as <- <-; now split]. destruct ir as [r|]; [|intro E; injection E as <- <-; now split].
  cbv zeta. destruct (HolderModel.rs _ r); intro E; injection E as <- <-; now split.
Qed.
Lemma resp_shape c id code b o c' : HolderModel.step c (HolderModel.Resp id code b) = (o, Some c') -> HolderModel.open c' = HolderModel.open c /\ HolderSpec.wires o = [].
Proof.
  cbn [HolderModel.step]. destruct (HolderModel.reader c); [intro E; injection E as <- <-; now split|]. destruct (_ && _); [|intro E; injection E as <- <-; now split].
  destruct (HolderModel.remove _ _) as [[h ir]|]; [|discriminate]. intro E; injection E as <- <-; now split.
Qed.
Lemma do_deliver p t cops sops D : J rc m msg body dial p t cops sops D -> HolderSpec.timely (client t) -> ph p = Running ->
  exists o p' cops', step rc msg body dial p (Client HolderModel.Deliver) = (o, Some p') /\ J rc m msg body dial p' (t ++ o) cops' sops D /\ HolderSpec.timely (client (t ++ o)) /\ sends o = [] /\
    ph p' = Running /\ HolderModel.open (cli p') = HolderModel.open (cli p) /\ HolderModel.reader (cli p') = None /\ cread p' = cread p /\ srv p' = srv p /\ swr p' = swr p.
Proof.
  intros H T PH. cbn [step]. rewrite PH. unfold c_step. destruct (HolderModel.step (cli p) HolderModel.Deliver) as [o1 oc] eqn:S.
  assert (EX : exists c', oc = Some c'). { cbn [HolderModel.step] in S. cbv zeta in S. destruct (HolderModel.reader (cli p)) as [[[ir code] b]|]; [|injection S as _ <-; eauto]. destruct ir as [r|]; [|injection S as _ <-; eauto]. destruct (HolderModel.rs _ r); injection S as _ <-; eauto. }
  destruct EX as [c' ->]. destruct (deliver_shape _ _ _ S) as [OP W]. pose proof (HolderProps.deliver_idle _ _ _ S) as RD.
  assert (FO : fold_left (fun p x => match p, x with Some p, HolderModel.OWire id r => c_write rc p (OpReq (sentq msg body (id, r))) | p, _ => p end) o1 (Some (set_c p c')) = Some (set_c p c')).
  { destruct (PairLink.step_one _ _ _ _ S) as [->|[x ->]]; [reflexivity|]. destruct x; try reflexivity. discriminate W. }
  assert (ST : c_step rc msg body p HolderModel.Deliver = (map CO o1, Some (set_c p c'))) by (unfold c_step; rewrite S; now rewrite FO).
  destruct (client_t t o1) as (C1 & _ & _). assert (T1 : HolderSpec.timely (client (t ++ map CO o1))) by (rewrite C1; now apply timely_quiet).
  assert (NS : (exists r, HolderModel.Deliver = HolderModel.Send r) -> cok p = true) by (intros [? X]; discriminate X). destruct (J_client rc m msg body dial HR RC _ _ _ _ _ HolderModel.Deliver _ _ H PH eq_refl NS ST T1) as (p' & cops' & E & H'). injection E as <-.
  exists (map CO o1), (set_c p c'), cops'. rewrite FO. split; [reflexivity|]. split; [exact H'|]. split; [exact T1|]. split; [unfold sends; now rewrite client_CO|]. cbn. now repeat split.
Qed.
Lemma do_read p t cops sops D : J rc m msg body dial p t cops sops D -> HolderSpec.timely (client t) -> ph p = Running -> HolderModel.reader (cli p) = None -> HolderModel.open (cli p) = true ->
  alive (srv p) = true -> w_out (swr p) = sent (swr p) -> (cread p < length D)%nat ->
  exists o p', step rc msg body dial p (CRead [length (w_out (swr p))]) = (o, Some p') /\ J rc m msg body dial p' (t ++ o) cops sops D /\ HolderSpec.timely (client (t ++ o)) /\ sends o = [] /\
    ph p' = Running /\ HolderModel.open (cli p') = true /\ cread p' = S (cread p) /\ srv p' = srv p /\ swr p' = swr p.
Proof.
  intros H T PH RD OP AL FL L. destruct (step rc msg body dial p (CRead [length (w_out (swr p))])) as [o op] eqn:E.
  pose proof (j_sw H) as [w1 w2 w3 w4 w5 w6 w7]. rewrite AL in w1. destruct (nth_error D (cread p)) as [y|] eqn:NY; [|apply nth_error_None in NY; lia].
  assert (NR : nth_error (responses_of sops) (cread p) = Some (frame_of (sreq p) y)) by (rewrite w3, nth_error_map, NY; reflexivity).
  assert (N4 : rc = RC4 -> Forall (fun p => p_msg p <> PING) (responses_of sops)).
  { intro R4. rewrite w3. apply Forall_forall. intros q Q. apply in_map_iff in Q. destruct Q as (z & <- & Q). now apply (D_msg rc m msg body dial HR p t cops sops D). }
  pose proof (cr_ph (j_cr H)) as P. rewrite PH in P.
  assert (N0 : dial = true -> exists q, nth_error (responses_of sops) 0 = Some q /\ seen rc q = mkRes PING PING_ID RC_OK []).
  { intro DI. destruct (P DI) as (z & D' & -> & FR & _). rewrite w3. exists (frame_of (sreq p) z). split; [reflexivity|]. inversion_clear w6 as [|? ? A B]. destruct (A FR) as [-> _]. reflexivity. }
  assert (N1 : dial = true -> (1 <= cread p)%nat) by (intro DI; now destruct (P DI) as (z & D' & _ & _ & Q)).
  assert (R1 : rc <> RC1) by (destruct RC as [-> |[-> _]]; discriminate).
  pose proof (all_read rc dial sops (swr p) (cread p) _ R1 N4 w1 FL w2 N0 N1 NR) as AR.
  pose proof E as E0. cbn [step] in E. rewrite PH, RD, OP, AR in E. cbv zeta in E.
  assert (W : HolderSpec.wires (client o) = []).
  { destruct (_ && _); [now injection E as <- <-|]. unfold c_step in E. cbn [cli set_cread] in E. destruct (HolderModel.step (cli p) _) as [o1 [c'|]] eqn:S.
    - destruct (resp_shape _ _ _ _ _ _ S) as [O1 W1]. injection E as <- E. now rewrite client_CO.
    - injection E as <- <-. rewrite client_CO. cbn [HolderModel.step] in S. rewrite RD in S. destruct (_ && _); [|discriminate]. destruct (HolderModel.remove _ _) as [[h ir]|]; [discriminate|]. now injection S as <-. }
  assert (T1 : HolderSpec.timely (client (t ++ o))) by (rewrite client_app; now apply timely_quiet).
  destruct (J_cread rc m msg body dial HR RC _ _ _ _ _ _ _ _ H E0 T1) as (p' & -> & H').
  exists o, p'. split; [reflexivity|]. split; [exact H'|]. split; [exact T1|]. split; [exact W|].
  destruct (_ && _); [injection E as <- <-; cbn; now repeat split|]. unfold c_step in E. cbn [cli set_cread] in E.
  destruct (HolderModel.step (cli p) _) as [o1 [c'|]] eqn:S; [|discriminate]. destruct (resp_shape _ _ _ _ _ _ S) as [O1 W1]. injection E as <- E.
  assert (p' = set_c (set_cread p (Datatypes.S (cread p))) c') as ->.
  { rewrite client_CO in W. destruct (PairLink.step_one _ _ _ _ S) as [->|[x ->]]; cbn in E; [now injection E as <-|]. destruct x; try (now injection E as <-). discriminate W. }
  cbn. rewrite O1. now repeat split.
Qed.
Lemma read_on_run n : forall p t cops sops D, J rc m msg body dial p t cops sops D -> HolderSpec.timely (client t) -> ph p = Running -> HolderModel.open (cli p) = true ->
  alive (srv p) = true -> w_out (swr p) = sent (swr p) -> length D = (cread p + n)%nat ->
  exists t' p' cops', run rc msg body dial p (read_on (length (w_out (swr p))) n) = (t', Some p') /\ J rc m msg body dial p' (t ++ t') cops' sops D /\ HolderSpec.timely (client (t ++ t')) /\ sends t' = [] /\
    HolderModel.reader (cli p') = None /\ cread p' = length D /\ srv p' = srv p.
Proof.
  induction n as [|n IH]; intros p t cops sops D H T PH OP AL FL LD; destruct (do_deliver _ _ _ _ _ H T PH) as (o1 & p1 & c1 & E1 & H1 & T1 & S1 & PH1 & OP1 & RD1 & CR1 & SV1 & SW1).
  - exists (o1 ++ []), p1, c1. unfold read_on. cbn [seq flat_map app run]. rewrite E1. cbn [run ok]. rewrite app_nil_r. split; [reflexivity|]. split; [exact H1|]. split; [exact T1|]. split; [exact S1|]. split; [exact RD1|]. split; [lia|exact SV1].
  - rewrite read_on_S. cbn [run]. rewrite E1.
    destruct (do_read p1 (t ++ o1) c1 sops D H1 T1 PH1 RD1) as (o2 & p2 & E2 & H2 & T2 & S2 & PH2 & OP2 & CR2 & SV2 & SW2); [congruence|congruence|congruence|lia|]. rewrite SW1 in E2. rewrite E2.
    destruct (IH p2 ((t ++ o1) ++ o2) c1 sops D H2 T2 PH2 OP2) as (t' & p' & c' & E3 & H3 & T3 & S3 & RD3 & CR3 & SV3); [congruence|congruence|lia|]. rewrite SW2, SW1 in E3. rewrite E3.
    exists (o1 ++ o2 ++ t'), p', c'. split; [reflexivity|]. rewrite !app_assoc in *. split; [exact H3|]. split; [exact T3|]. split; [|split; [exact RD3|split; [exact CR3|congruence]]].
    unfold sends in *. rewrite !client_app, !HolderProofs.wires_app in *. now rewrite S1, S2, S3.
Qed.
End Live.
