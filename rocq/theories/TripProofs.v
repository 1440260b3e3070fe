(** The moves of a pair come to an end. *)
From Coq Require Import ZArith List Bool Arith Lia.
Import ListNotations.
From Verif Require Import Base WireModel WireSpec WireWriterProofs WireReaderProofs WireProps PairModel PairSpec PairWire PairProofs PairLive TripSpec.
From Verif Require HolderModel HolderSpec HolderProofs HolderProps PairLink ServerModel ServerSpec ServerProofs ServerTrace ServerEnd.
Open Scope Z_scope.

(** ** reading takes bytes *)
Lemma Read_takes r S n r' x : rinv r -> strm r S -> sl_Read r n = ROk r' x -> rinv r' /\ exists S', strm r' S' /\ (length S' + n = length S)%nat.
Proof.
  intros I H E. destruct (le_lt_dec n (length S)) as [L|L].
  - destruct (Read_full r S n I H L) as (r1 & x1 & E1 & I1 & _ & _ & _ & S1). rewrite E in E1. injection E1 as -> ->. split; [exact I1|]. exists (skipn n S). split; [exact S1|]. rewrite skipn_length. lia.
  - destruct (Read_short r S n I H L) as [(_ & r1 & E1)|(_ & [(r1 & E1)|E1])]; congruence.
Qed.
Lemma requests_bytes fuel : forall r S, rinv r -> strm r S -> (12 * length (fst (read_requests fuel r)) <= length S)%nat.
Proof.
  induction fuel as [|fuel IH]; intros r S I H; [cbn; lia|]. cbn [read_requests]. destruct (hr_request r) as [r' q|r' e|] eqn:E; [|cbn; lia|cbn; lia].
  unfold hr_request in E. destruct (sl_Read r 12) as [r1 h|r1 e|] eqn:E1; try discriminate. cbn [r_bind] in E. destruct (sl_Read r1 _) as [r2 b|r2 e|] eqn:E2; try discriminate. injection E as <- _.
  destruct (Read_takes _ _ _ _ _ I H E1) as (I1 & S1 & H1 & L1). destruct (Read_takes _ _ _ _ _ I1 H1 E2) as (I2 & S2 & H2 & L2).
  specialize (IH r2 S2 I2 H2). destruct (read_requests fuel r2) as [l e]. cbn [fst length] in *. lia.
Qed.
Lemma nth_bytes fuel cuts b n q : nth_error (fst (read_requests fuel (r_init (pieces cuts b)))) n = Some q -> (12 * S n <= length b)%nat.
Proof.
  intro H. destruct (pieces_carry cuts b) as (P & rest & E & C). pose proof (requests_bytes fuel _ P (rinv_init _) (strm_init _ _ C)) as L.
  assert (n < length (fst (read_requests fuel (r_init (pieces cuts b)))))%nat by (apply nth_error_Some; congruence). rewrite E, app_length. lia.
Qed.

(** ** a measure *)
Definition client_bytes (p : pair) : nat := if cok p then length (sent (cwr p)) else length (WireModel.w_out (cwr p)).
Definition flush_left (p : pair) : nat :=
  ((if cok p then 1 else 0) + (match WireModel.w_buf (cwr p) with None => 1 | Some _ => 0 end) + (if (0 <? w_wr (cwr p))%nat then 1 else 0))%nat.
Definition reading (p : pair) : nat := match HolderModel.reader (cli p) with Some _ => 1 | None => 0 end.
Definition trip (p : pair) (t : list obs) : nat :=
  (27 * 4 * (client_bytes p - 12 * sread p) + 4 * ServerEnd.work (srv p) + 2 * (length (ServerSpec.writes (server t)) + 1 - cread p) + reading p + flush_left p)%nat.

Lemma set_same (p : pair) : set_s p (srv p) = p. Proof. now destruct p. Qed.
Lemma eff_writes s e o s' : ServerProofs.eff s e o s' -> (length (ServerSpec.writes o) <= 1)%nat.
Proof. intro H. destruct H; cbn; lia. Qed.
Lemma server_SO t o : server (t ++ map SO o) = server t ++ o.
Proof. rewrite server_app. f_equal. unfold server. induction o; cbn; congruence. Qed.
Lemma work_step m s t e o s' : ServerProofs.reach m s t -> ServerSpec.internal e -> ServerModel.step s e = (o, Some s') -> s' = s /\ ServerSpec.writes o = [] \/ (ServerEnd.work s' < ServerEnd.work s)%nat /\ (length (ServerSpec.writes o) <= 1)%nat.
Proof.
  intros R Hi E. pose proof (ServerProofs.SI_reach _ _ _ R) as I. apply ServerProofs.step_eff in E; [|exact I]. pose proof (eff_writes _ _ _ _ E) as W.
  destruct (ServerEnd.work_eff _ _ _ _ I E Hi) as [Q|Q]; [|now right]. destruct (ServerSpec.writes o) eqn:X; [now left|]. right. split; [|exact W].
  destruct E; try discriminate X. apply (f_equal ServerModel.wp) in Q. cbn in Q. congruence.
Qed.
Lemma work_fail s : match ServerModel.wp s with ServerModel.WWrite _ | ServerModel.WFlush | ServerModel.WEnd => True | _ => False end -> (ServerEnd.work (ServerModel.w_wp s ServerModel.WNote) < ServerEnd.work s)%nat.
Proof. unfold ServerEnd.work, ServerEnd.mf, ServerTrace.blkl. cbn. destruct (ServerModel.wp s); intro H; try contradiction; cbn; lia. Qed.

Section Moves.
Variable rc : rctype.
Variable m : option ServerModel.rcmap.
Variable msg : HolderModel.rid -> Z.
Variable body : HolderModel.rid -> list Z.
Variable dial : bool.
Hypothesis HR : proper_requests msg body.
Hypothesis HM : proper_map m.
Hypothesis RC : rc = RC0 \/ (rc = RC4 /\ dial = false).
Notation J := (J rc m msg body dial).
Notation step := (step rc msg body dial).

(** a step of the server's goroutines *)
Lemma trip_server p t cops sops D e o p' : J p t cops sops D -> ServerSpec.internal e -> s_step p e = (o, Some p') -> p' = p \/ (trip p' (t ++ o) < trip p t)%nat.
Proof.
  intros H Hi E. unfold s_step in E. destruct (ServerModel.step (srv p) e) as [o1 [s'|]] eqn:S; [|discriminate]. injection E as <- <-.
  destruct (work_step _ _ _ _ _ _ (j_s H) Hi S) as [[-> W]|[L W]]; [left; apply set_same|right].
  unfold trip. rewrite server_SO, ServerTrace.writes_app, app_length. cbn. unfold client_bytes, reading, flush_left. cbn. lia.
Qed.
Lemma trip_write p t cops sops D o1 o p' : J p t cops sops D ->
  match ServerModel.wp (srv p) with ServerModel.WWrite _ | ServerModel.WFlush | ServerModel.WEnd => True | _ => False end ->
  s_write rc p o1 = (o, Some p') -> (trip p' (t ++ o) < trip p t)%nat.
Proof.
  intros H WP E. unfold s_write in E. destruct (hw_op rc (swr p) o1) as [w|w|]; [| |discriminate]; unfold s_step in E; cbn [srv set_sw] in E.
  - destruct (ServerModel.step (srv p) ServerModel.Writer) as [o2 [s'|]] eqn:S; [|discriminate]. injection E as <- <-.
    destruct (work_step _ _ _ ServerModel.Writer _ _ (j_s H) Logic.I S) as [[-> _]|[L W]].
    + exfalso. cbn [ServerModel.step] in S. unfold ServerModel.step_writer in S. destruct (ServerModel.wp (srv p)) eqn:Q; try contradiction; injection S as _ S; apply (f_equal ServerModel.wp) in S; cbn in S; congruence.
    + unfold trip. rewrite server_SO, ServerTrace.writes_app, app_length. cbn. unfold client_bytes, reading, flush_left. cbn. lia.
  - pose proof (work_fail _ WP) as L. cbn [ServerModel.step] in E. destruct (ServerModel.wp (srv p)); try contradiction; injection E as <- <-; cbn [map];
      change [SO ServerModel.OWriteErr] with (map SO [ServerModel.OWriteErr]); unfold trip; rewrite server_SO, ServerTrace.writes_app, app_length; cbn; unfold client_bytes, reading, flush_left; cbn; lia.
Qed.
(** the client's steps *)
Lemma trip_flush p t cops sops D o p' : J p t cops sops D -> step p CFlush = (o, Some p') -> p' = p \/ (trip p' (t ++ o) < trip p t)%nat.
Proof.
  intros H E. cbn [PairModel.step] in E. destruct (ph p) eqn:PH; [left; now injection E|left; now injection E|]. destruct (cok p) eqn:K; [|left; now injection E].
  unfold c_write in E. cbn [hw_op] in E. destruct (cw_w (j_cw H)) as (ds & _ & _ & W). destruct (W K) as [WI _].
  pose proof (flush_post (cwr p) WI) as F.
  assert (SH : match w_flush (cwr p) with
               | WOk w => w = cwr p \/ ((match WireModel.w_buf w with None => 1 | Some _ => 0 end) + (if (0 <? w_wr w)%nat then 1 else 0) < (match WireModel.w_buf (cwr p) with None => 1 | Some _ => 0 end) + (if (0 <? w_wr (cwr p))%nat then 1 else 0))%nat
               | WErr w => WireModel.w_buf w = WireModel.w_buf (cwr p) /\ w_wr w = w_wr (cwr p)
               | WPanic => True end).
  { unfold w_flush. destruct (0 <? w_wr (cwr p))%nat eqn:L.
    - destruct (WireModel.w_buf (cwr p)) as [b|] eqn:B; [|exact Logic.I]. destruct (length b <? w_wr (cwr p))%nat; [exact Logic.I|]. unfold w_write. destruct (w_script (cwr p)) as [|[k|] s]; cbn; rewrite ?B; cbn; first [now split|right; change (0 <? 0)%nat with false; cbv iota; lia].
    - cbn. destruct (WireModel.w_buf (cwr p)) as [b|] eqn:B; [now left|]. right. cbn. rewrite L. lia. }
  destruct (w_flush (cwr p)) as [w|w|]; [| |discriminate]; injection E as <- <-.
  - destruct SH as [->|SH]; [left; now destruct p; cbn in *; subst|right]. unfold trip, client_bytes, reading, flush_left. rewrite app_nil_r. cbn. rewrite K. destruct F as (_ & S & _). rewrite S. lia.
  - right. unfold trip, client_bytes, reading, flush_left. rewrite app_nil_r. cbn. rewrite K. destruct F as [c F]. rewrite F, app_length. destruct SH as [-> ->]. lia.
Qed.

Lemma c_step_client p e o p' : c_step rc msg body p e = (o, Some p') -> sread p' = sread p /\ cread p' = cread p /\ srv p' = srv p.
Proof.
  unfold c_step. destruct (HolderModel.step (cli p) e) as [o1 [c|]]; [|discriminate]. intro E. injection E as _ E.
  assert (G : forall l q q', fold_left (fun p x => match p, x with Some p, HolderModel.OWire id r => c_write rc p (OpReq (sentq msg body (id, r))) | p, _ => p end) l (Some q) = Some q' -> sread q' = sread q /\ cread q' = cread q /\ srv q' = srv q).
  { induction l as [|x l IH]; intros q q' X; [cbn in X; injection X as <-; now repeat split|]. cbn [fold_left] in X. destruct x as [id r| | |]; try (now apply (IH q)).
    unfold c_write in X. destruct (hw_op _ _ _); [now apply (IH (set_cw q w true))|now apply (IH (set_cw q w false))|].
    exfalso. clear - X. induction l as [|y l IH]; [discriminate|]. cbn in X. destruct y; now apply IH. }
  now apply (G o1 (set_c p c)).
Qed.
(** a step of the client's machine that writes nothing *)
Lemma quiet_step p e o c : HolderModel.step (cli p) e = (o, Some c) -> HolderSpec.wires o = [] -> c_step rc msg body p e = (map CO o, Some (set_c p c)).
Proof.
  intros S W. unfold c_step. rewrite S. f_equal. destruct (PairLink.step_one _ _ _ _ S) as [->|[x ->]]; [reflexivity|]. destruct x; try reflexivity. discriminate W.
Qed.
Lemma server_CO t o : server (t ++ map CO o) = server t.
Proof. rewrite server_app. replace (server (map CO o)) with (@nil ServerModel.obs); [apply app_nil_r|]. unfold server. induction o; cbn; congruence. Qed.
Lemma deliver_or c o c' : HolderModel.step c HolderModel.Deliver = (o, Some c') -> c' = c \/ (HolderModel.reader c <> None /\ HolderModel.reader c' = None).
Proof.
  intro S. pose proof (HolderProps.deliver_idle _ _ _ S) as RD. cbn [HolderModel.step] in S. destruct (HolderModel.reader c) eqn:R; [right; split; [discriminate|exact RD]|left; now injection S].
Qed.
Lemma trip_step p t cops sops D e o p' : J p t cops sops D -> HolderSpec.timely (client t) -> move e -> step p e = (o, Some p') ->
  p' = p \/ (trip p' (t ++ o) < trip p t)%nat.
Proof.
  intros H T M E. destruct e as [|cuts|e| | |cuts|e|cuts]; cbn [move] in M; try contradiction.
  - destruct e; try contradiction. cbn [PairModel.step] in E. destruct (ph p); [left; now injection E|left; now injection E|].
    destruct (HolderModel.step (cli p) HolderModel.Deliver) as [o1 [c|]] eqn:S; [|unfold c_step in E; rewrite S in E; discriminate]. rewrite (quiet_step _ _ _ _ S (proj2 (deliver_shape _ _ _ S))) in E. injection E as <- <-.
    destruct (deliver_or _ _ _ S) as [->|[A B]]; [left; now destruct p|right]. unfold trip, client_bytes, reading, flush_left. rewrite server_CO. cbn. rewrite B. destruct (HolderModel.reader (cli p)); [lia|congruence].
  - now apply (trip_flush _ _ _ _ _ _ _ H).
  - assert (CL : clean rc (CRead cuts)) by exact Logic.I. pose proof E as E0. cbn [PairModel.step] in E. destruct (ph p) eqn:PH; [left; now injection E|left; now injection E|]. destruct (HolderModel.reader (cli p)) eqn:RD; [left; now injection E|]. destruct (HolderModel.open (cli p)); [|left; now injection E].
    destruct (nth_error _ _) as [x|] eqn:N; [|left; now injection E]. right. cbv zeta in E.
    assert (T' : HolderSpec.timely (client (t ++ o))).
    { destruct (_ && _); [injection E as <- <-; now rewrite app_nil_r|]. unfold c_step in E. cbn [cli set_cread] in E. destruct (HolderModel.step (cli p) _) as [o1 [c|]] eqn:S; [|discriminate]. injection E as <- _. destruct (client_t t o1) as (C1 & _). rewrite C1. apply timely_quiet; [|exact T]. apply (proj2 (resp_shape _ _ _ _ _ _ S)). }
    destruct (J_step _ _ _ _ _ HR HM RC _ _ _ _ _ _ _ _ H CL E0 T') as (cops' & sops' & D' & H'). pose proof (cr_n (j_cr H')) as CN.
    assert (DL : (length D' <= length (ServerSpec.writes (server (t ++ o))) + 1)%nat) by (destruct (sw_x (j_sw H')) as [->|[_ [y ->]]]; rewrite ?app_length; cbn; lia).
    destruct (_ && _).
    + injection E as <- <-. rewrite app_nil_r in *. cbn [cread set_cread] in CN. unfold trip, client_bytes, reading, flush_left. cbn. rewrite RD. lia.
    + destruct (HolderModel.step (cli (set_cread p (S (cread p)))) (HolderModel.Resp (p_id x) (p_code x) (p_body x))) as [o1 [c|]] eqn:S; [|unfold c_step in E; rewrite S in E; discriminate].
      rewrite (quiet_step _ _ _ _ S (proj2 (resp_shape _ _ _ _ _ _ S))) in E. injection E as <- <-. rewrite server_CO in *. cbn [cread set_cread set_c] in CN. unfold trip, client_bytes, reading, flush_left. rewrite server_CO. cbn. rewrite RD. destruct (HolderModel.reader c); lia.
  - cbn [PairModel.step] in E. destruct e; cbn in M; try contradiction; try (now apply (trip_server _ _ _ _ _ _ _ _ H) in E).
    destruct (ServerModel.wp (srv p)) eqn:WP; try (apply (trip_server _ _ _ _ _ _ _ _ H) in E; [exact E|exact Logic.I]); right; (eapply trip_write; [exact H|rewrite WP; exact Logic.I|exact E]).
  - cbn [PairModel.step] in E. destruct (ServerModel.rp (srv p)) eqn:RP; try (left; now injection E). destruct (nth_error _ _) as [q|] eqn:N; [|left; now injection E]. right. apply nth_bytes in N.
    assert (CB : (length (WireModel.w_out (cwr p)) <= client_bytes p)%nat) by (unfold client_bytes, sent; destruct (cok p); rewrite ?app_length; lia).
    cbv zeta in E. unfold s_step in E. cbn [srv set_sread set_sreq ServerModel.step] in E. rewrite RP in E.
    assert (W : forall o1 s', (ServerEnd.work s' = ServerEnd.work (srv p) + 26 \/ ServerEnd.work s' = ServerEnd.work (srv p) + 17)%nat -> ServerSpec.writes (server (t ++ o1)) = ServerSpec.writes (server t) -> srv p' = s' -> cli p' = cli p -> cwr p' = cwr p -> cok p' = cok p -> cread p' = cread p -> sread p' = S (sread p) -> (trip p' (t ++ o1) < trip p t)%nat).
    { intros o1 s' A1 A2 <- A4 A5 A6 A7 A8. unfold trip, reading, flush_left, client_bytes in *. rewrite A2, A4, A5, A6, A7, A8. lia. }
    destruct (q_msg q =? PING); injection E as <- <-; (eapply W; [| |reflexivity|reflexivity|reflexivity|reflexivity|reflexivity|reflexivity]).
    + right. unfold ServerEnd.work, ServerEnd.mf, ServerTrace.blkl. cbn. rewrite RP. cbn. lia.
    + rewrite server_app, ServerTrace.writes_app. cbn. apply app_nil_r.
    + left. unfold ServerEnd.work, ServerEnd.mf, ServerTrace.blkl. cbn. rewrite RP. cbn. lia.
    + rewrite server_app, ServerTrace.writes_app. cbn. apply app_nil_r.
Qed.
(** a move sends nothing *)
Lemma move_sends p e o p' : move e -> step p e = (o, Some p') -> HolderSpec.wires (client o) = [].
Proof.
  intros M E. assert (SS : forall q x o q', s_step q x = (o, Some q') -> client o = []).
  { intros q x o0 q' X. unfold s_step in X. destruct (ServerModel.step (srv q) x) as [o1 [s|]]; [|discriminate]. injection X as <- _. unfold client. induction o1; cbn; congruence. }
  assert (SW : forall x o, s_write rc p x = (o, Some p') -> client o = []) by (intros x o0 X; unfold s_write in X; destruct (hw_op rc (swr p) x); [| |discriminate]; now apply SS in X).
  assert (CS : forall q x o1 c, HolderModel.step (cli q) x = (o1, Some c) -> HolderSpec.wires o1 = [] -> c_step rc msg body q x = (o, Some p') -> HolderSpec.wires (client o) = []).
  { intros q x o1 c S W X. rewrite (quiet_step _ _ _ _ S W) in X. injection X as <- _. now rewrite client_CO. }
  destruct e as [|cuts|e| | |cuts|e|cuts]; cbn [move] in M; try contradiction; cbn [PairModel.step] in E.
  - destruct e; try contradiction. destruct (ph p); [now injection E as <- _|now injection E as <- _|]. destruct (HolderModel.step (cli p) HolderModel.Deliver) as [o1 [c|]] eqn:S; [|unfold c_step in E; rewrite S in E; discriminate].
    exact (CS p _ _ _ S (proj2 (deliver_shape _ _ _ S)) E).
  - destruct (ph p); [now injection E as <- _|now injection E as <- _|]. destruct (cok p); [|now injection E as <- _]. destruct (c_write rc p OpFlush); [now injection E as <- _|discriminate].
  - destruct (ph p); [now injection E as <- _|now injection E as <- _|]. destruct (HolderModel.reader (cli p)); [now injection E as <- _|]. destruct (HolderModel.open (cli p)); [|now injection E as <- _]. destruct (nth_error _ _) as [x|]; [|now injection E as <- _]. cbv zeta in E.
    destruct (_ && _); [now injection E as <- _|]. destruct (HolderModel.step (cli (set_cread p (S (cread p)))) (HolderModel.Resp (p_id x) (p_code x) (p_body x))) as [o1 [c|]] eqn:S; [|unfold c_step in E; rewrite S in E; discriminate].
    exact (CS _ _ _ _ S (proj2 (resp_shape _ _ _ _ _ _ S)) E).
  - assert (G : s_step p e = (o, Some p') -> HolderSpec.wires (client o) = []) by (intro X; apply SS in X; now rewrite X).
    destruct e; cbn in M; try contradiction; try (now apply G). destruct (ServerModel.wp (srv p)); try (now apply G); apply SW in E; now rewrite E.
  - destruct (ServerModel.rp (srv p)); try (now injection E as <- _). destruct (nth_error _ _) as [q|]; [|now injection E as <- _]. cbv zeta in E. destruct (q_msg q =? PING).
    + apply SS in E. now rewrite E.
    + destruct (s_step _ _) as [o1 op] eqn:X. injection E as <- ->. apply SS in X. cbn. change (client o1 = []) in X. unfold client in X. now rewrite X.
Qed.
Lemma move_clean e : move e -> clean rc e.
Proof. destruct e as [| |e| | | |e|]; cbn; try contradiction; trivial. destruct e; cbn; trivial; contradiction. Qed.
Lemma trip_bound es : forall p t cops sops D, J p t cops sops D -> HolderSpec.timely (client t) -> effective rc msg body dial p es -> (length es <= trip p t)%nat.
Proof.
  induction es as [|e es IH]; intros p t cops sops D H T E; [cbn; lia|]. cbn [effective] in E. destruct E as (M & o & p' & S & N & E).
  assert (T' : HolderSpec.timely (client (t ++ o))) by (rewrite client_app; apply timely_quiet; [exact (move_sends _ _ _ _ M S)|exact T]).
  destruct (J_step _ _ _ _ _ HR HM RC _ _ _ _ _ _ _ _ H (move_clean _ M) S T') as (cops' & sops' & D' & H').
  destruct (trip_step _ _ _ _ _ _ _ _ H T M S) as [->|L]; [now elim N|]. specialize (IH _ _ _ _ _ H' T' E). cbn [length]. lia.
Qed.

(** ** what holds when nothing moves *)
Lemma quiet_stuck p : quiet rc msg body dial p -> ServerSpec.stuck (srv p).
Proof.
  intros Q e Hi. specialize (Q (Server e) Hi). cbn [PairModel.step] in Q.
  assert (G : s_step p e = ok p -> ServerModel.step (srv p) e = ([], Some (srv p))).
  { intro X. unfold s_step in X. destruct (ServerModel.step (srv p) e) as [o1 [s|]]; [|discriminate]. injection X as X1 X2. destruct o1; [|discriminate]. apply (f_equal srv) in X2. cbn in X2. now rewrite X2. }
  destruct e; cbn in Hi; try contradiction; try (now apply G).
  destruct (ServerModel.wp (srv p)) eqn:WP; try (now apply G); exfalso; unfold s_write in Q; (destruct (hw_op _ _ _); [| |discriminate]); unfold s_step in Q; cbn [srv set_sw ServerModel.step] in Q; unfold ServerModel.step_writer in Q; rewrite WP in Q; cbn in Q; try discriminate; injection Q as Q; apply (f_equal srv), (f_equal ServerModel.wp) in Q; cbn in Q; congruence.
Qed.
Lemma quiet_sent p t cops sops D : J p t cops sops D -> quiet rc msg body dial p -> ph p = Running -> cok p = true -> WireModel.w_out (cwr p) = sent (cwr p).
Proof.
  intros H Q PH K. specialize (Q CFlush Logic.I). cbn [PairModel.step] in Q. rewrite PH, K in Q. unfold c_write in Q. cbn [hw_op] in Q.
  destruct (cw_w (j_cw H)) as (ds & _ & _ & W). destruct (W K) as [WI _]. pose proof (flush_post (cwr p) WI) as F. destruct (w_flush (cwr p)) as [w|w|]; [| |contradiction].
  - injection Q as Q. apply (f_equal cwr) in Q. cbn in Q. subst w. apply F.
  - injection Q as Q. apply (f_equal cok) in Q. cbn in Q. congruence.
Qed.
Lemma all_requests_read ops w n : wrote rc ops w true -> WireModel.w_out w = sent w -> Forall request_call ops ->
  nth_error (fst (read_requests (S n) (r_init (pieces [length (WireModel.w_out w)] (WireModel.w_out w))))) n = None -> (length (requests_of ops) <= n)%nat.
Proof.
  intros (ds & F & _ & W) WO K N. destruct (W eq_refl) as [_ SE]. destruct (requests_emitted rc ops ds K F) as [Q E]. destruct (le_lt_dec (length (requests_of ops)) n) as [L|L]; [exact L|]. exfalso. revert N.
  rewrite WO, SE, E. set (qs := requests_of ops) in *.
  pose proof (strm_init _ _ (one_piece (concat (map request_frame qs)))) as S. set (r0 := r_init _) in *.
  rewrite <- (firstn_skipn (Datatypes.S n) qs), map_app, concat_app in S.
  assert (F1 : Forall request_ok (firstn (Datatypes.S n) qs)) by (rewrite <- (firstn_skipn (Datatypes.S n) qs) in Q; apply Forall_app in Q; apply Q).
  destruct (read_requests_ok (firstn (Datatypes.S n) qs) (Datatypes.S n) r0 _ (rinv_init _) F1 S) as (r' & _ & _ & E2); [rewrite firstn_length; lia|].
  rewrite E2. destruct (read_requests _ r') as [l e]. cbn [fst]. intro N. apply nth_error_None in N. rewrite app_length, firstn_length in N. lia.
Qed.
Lemma quiet_read p t cops sops D : J p t cops sops D -> quiet rc msg body dial p -> ph p = Running -> cok p = true -> ServerModel.rp (srv p) = ServerModel.RIdle ->
  map snd (reads t) = map (sentq msg body) (sends t).
Proof.
  intros H Q PH K RI. pose proof (quiet_sent _ _ _ _ _ H Q PH K) as WO. specialize (Q (SRead [length (WireModel.w_out (cwr p))]) Logic.I). cbn [PairModel.step] in Q. rewrite RI in Q.
  pose proof (cw_w (j_cw H)) as W. rewrite K in W.
  destruct (nth_error _ _) as [q|] eqn:N.
  - exfalso. cbv zeta in Q. unfold s_step in Q. cbn [srv set_sread set_sreq ServerModel.step] in Q. rewrite RI in Q. destruct (q_msg q =? PING); discriminate Q.
  - apply (all_requests_read _ _ _ W WO (cw_c (j_cw H))) in N. pose proof (sr_f (j_sr H)) as F. rewrite firstn_all2 in F by exact N. rewrite (cw_f (j_cw H)) in F.
    rewrite F, (sr_r (j_sr H)), map_map. reflexivity.
Qed.
End Moves.
