(** Property theorems C01-C10 (wire layer). *)
From Coq Require Import ZArith List Bool Arith Lia.
Import ListNotations.
From Verif Require Import Base WireModel WireSpec WireWriterProofs WireReaderProofs.
Open Scope Z_scope.

(** Calls that write requests (and flush) with fields that fit the header. *)
Definition request_call (o : wop) : Prop :=
  match o with OpReq q => request_ok q | OpPing => True | OpFlush => True | OpRes _ => False end.
(** Calls that write responses (and flush). *)
Definition response_call (rc : rctype) (o : wop) : Prop :=
  match o with OpRes p => response_ok rc p | OpFlush => True | _ => False end.

Lemma requests_emitted rc ops ds : Forall request_call ops -> Forall2 (emits rc) ops ds ->
  Forall request_ok (requests_of ops) /\ concat ds = concat (map request_frame (requests_of ops)).
Proof.
  intros F E. induction E as [|o d ops ds E1 E2 IH]; simpl; auto.
  inversion F; subst. destruct (IH H2) as [F' C']. 
  inversion E1; subst; simpl in *; try contradiction; rewrite C'; split; auto.
  constructor; auto. unfold request_ok, u32_ok, PING, PING_ID, zlen; simpl; lia.
Qed.

Lemma responses_emitted rc ops ds : rc <> RC1 ->
  (rc = RC4 -> Forall (fun p => p_msg p <> PING) (responses_of ops)) ->
  Forall (response_call rc) ops -> Forall2 (emits rc) ops ds ->
  Forall (response_ok rc) (responses_of ops) /\
  concat ds = concat (map (response_frame rc) (responses_of ops)).
Proof.
  intros R N F E. induction E as [|o d ops ds E1 E2 IH]; simpl; auto.
  inversion F; subst. destruct IH as [F' C']; auto.
  { intros Q. specialize (N Q). destruct o; auto. simpl in N. inversion N; auto. }
  inversion E1 as [| | |p c len HL HC]; subst; simpl in *; try contradiction; rewrite ?C'; split; auto.
  f_equal. unfold response_frame, code_bytes. destruct rc; try congruence.
  - specialize (N eq_refl). inversion N as [|? ? NP]; subst. rewrite <- Z.eqb_neq in NP. rewrite NP.
    replace (zlen (p_body p) + rc_len RC4) with (zlen (le32 (p_code p)) + zlen (p_body p)).
    auto. change (zlen (le32 (p_code p))) with 4. unfold rc_len; lia.
  - subst c. simpl. destruct (p_msg p =? PING); simpl; rewrite Z.add_0_r; auto.
Qed.

Theorem C01_request_stream_roundtrip : forall rc ops, Forall request_call ops ->
  exists w, hw_run rc (w_init []) (ops ++ [OpFlush]) = WOk w /\
  forall script fuel, carries script (w_out w) -> (length (requests_of ops) < fuel)%nat ->
    read_requests fuel (r_init script) = (requests_of ops, EndErr EEOF).
Proof.
  intros rc ops F. destruct (hw_run_flushed rc ops) as (ds & w & E & H & O).
  exists w. split; auto. intros script fuel C L.
  destruct (requests_emitted rc ops ds F E) as [K D]. rewrite O, D in C.
  apply strm_init in C. rewrite <- (app_nil_r (concat _)) in C.
  destruct (read_requests_ok (requests_of ops) fuel _ [] (rinv_init _) K C) as (r' & I' & S' & ->). lia.
  rewrite read_requests_eof by (auto; lia). rewrite app_nil_r. auto.
Qed.
Print Assumptions C01_request_stream_roundtrip.

Theorem C02_response_stream_roundtrip_rc4 : forall ops,
  Forall (response_call RC4) ops -> Forall (fun p => p_msg p <> PING) (responses_of ops) ->
  exists w, hw_run RC4 (w_init []) (ops ++ [OpFlush]) = WOk w /\
  forall script fuel, carries script (w_out w) -> (length (responses_of ops) < fuel)%nat ->
    read_responses RC4 fuel (r_init script) = (responses_of ops, EndErr EEOF).
Proof.
  intros ops F N. destruct (hw_run_flushed RC4 ops) as (ds & w & E & H & O).
  exists w. split; auto. intros script fuel C L.
  destruct (responses_emitted RC4 ops ds ltac:(discriminate) (fun _ => N) F E) as [K D]. rewrite O, D in C.
  apply strm_init in C. rewrite <- (app_nil_r (concat _)) in C.
  destruct (read_responses_ok RC4 (responses_of ops) ltac:(discriminate) fuel _ [] (rinv_init _) K C) as (r' & I' & S' & ->). lia.
  rewrite read_responses_eof by (auto; lia). rewrite app_nil_r. f_equal.
  transitivity (map (fun x => x) (responses_of ops)); [|apply map_id].
  apply map_ext_in. intros p Hp. unfold seen. rewrite Forall_forall in N. specialize (N p Hp).
  apply Z.eqb_neq in N. rewrite N. destruct p; auto.
Qed.
Print Assumptions C02_response_stream_roundtrip_rc4.

Theorem C03_response_stream_roundtrip_rc0 : forall ops,
  Forall (response_call RC0) ops ->
  exists w, hw_run RC0 (w_init []) (ops ++ [OpFlush]) = WOk w /\
  forall script fuel, carries script (w_out w) -> (length (responses_of ops) < fuel)%nat ->
    read_responses RC0 fuel (r_init script) =
      (map (fun p => mkRes (p_msg p) (p_id p) RC_OK (p_body p)) (responses_of ops), EndErr EEOF).
Proof.
  intros ops F. destruct (hw_run_flushed RC0 ops) as (ds & w & E & H & O).
  exists w. split; auto. intros script fuel C L.
  destruct (responses_emitted RC0 ops ds ltac:(discriminate) ltac:(discriminate) F E) as [K D]. rewrite O, D in C.
  apply strm_init in C. rewrite <- (app_nil_r (concat _)) in C.
  destruct (read_responses_ok RC0 (responses_of ops) ltac:(discriminate) fuel _ [] (rinv_init _) K C) as (r' & I' & S' & ->). lia.
  rewrite read_responses_eof by (auto; lia). rewrite app_nil_r. f_equal.
  apply map_ext. intros p. unfold seen, RC_OK. destruct (p_msg p =? PING); auto.
Qed.
Print Assumptions C03_response_stream_roundtrip_rc0.

(** C04 is false, on both sides. Writer: the code byte is followed by three garbage bytes, so
    even an unfragmented stream is misread. *)
Theorem C04_rc1_roundtrip_refuted :
  exists p q out, response_ok RC1 p /\ response_ok RC1 q /\ p_msg p <> PING /\ p_code p < 256 /\
    wire_bytes RC1 [OpRes p; OpRes q; OpFlush] = Some out /\
    fst (read_responses RC1 1 (r_init [mkChunk out None])) <> [p].
Proof.
  exists (mkRes 5 7 1 [11;12]), (mkRes 6 8 0 []). eexists.
  split; [|split; [|split; [|split; [|split]]]].
  5: vm_compute; reflexivity.
  all: vm_compute; repeat split; try congruence.
Qed.
Print Assumptions C04_rc1_roundtrip_refuted.

(** Reader: a well-formed RC1 frame is read differently depending on fragmentation. *)
Theorem C04_rc1_fragmentation_refuted :
  exists p s1 s2, response_ok RC1 p /\ p_msg p <> PING /\ p_code p < 256 /\
    carries s1 (response_frame RC1 p) /\ carries s2 (response_frame RC1 p) /\
    read_responses RC1 2 (r_init s1) = ([p], EndErr EEOF) /\
    fst (read_responses RC1 2 (r_init s2)) <> [p].
Proof.
  exists (mkRes 5 7 1 [11;12]).
  exists [mkChunk [5;0;0;0;3;0;0;0;7;0;0;0;1;11;12] None],
         [mkChunk [5;0;0;0;3;0;0;0;7;0;0;0] None; mkChunk [1;11;12] None].
  assert (C : forall d, carries [mkChunk d None] d).
  { intros. rewrite <- (app_nil_r d) at 2. constructor. constructor. }
  split; [|split; [|split; [|split; [|split; [|split]]]]].
  1: vm_compute; repeat split; congruence.
  1: vm_compute; congruence.
  1: vm_compute; congruence.
  - apply C.
  - change (response_frame RC1 _) with ([5;0;0;0;3;0;0;0;7;0;0;0] ++ [1;11;12]).
    constructor. apply C.
  - vm_compute. reflexivity.
  - vm_compute. congruence.
Qed.
Print Assumptions C04_rc1_fragmentation_refuted.

(** The part that holds: on a fresh connection, if the first transport read delivers the
    header together with the code byte, the frame is read correctly. Missing: later frames,
    other fragmentations, and frames produced by WriteResponse. *)
Theorem C04_rc1_first_read_partial : forall p d cs s T,
  response_ok RC1 p -> p_msg p <> PING -> 0 <= p_code p < 256 ->
  carries cs s -> d ++ s = response_frame RC1 p ++ T -> (13 <= length d)%nat ->
  exists r' x, hr_response RC1 (r_init (mkChunk d None :: cs)) =
      ROk r' (mkRs (p_msg p) (p_id p) (p_code p) x) /\
    slice_bytes (r_store r') x = p_body p.
Proof.
  intros p d cs s T (K1 & K2 & K3 & K4) NP CR C E L.
  assert (S : strm (r_init (mkChunk d None :: cs)) (d ++ s)).
  { apply strm_init. constructor; auto. }
  rewrite E in S. unfold response_frame, code_bytes in *. apply Z.eqb_neq in NP. rewrite NP in *.
  rewrite <- !app_assoc in *.
  destruct (Read_prefix _ _ _ (rinv_init _) S) as (r1 & h & E1 & I1 & Z1 & F1 & B1 & S1).
  rewrite header_length in E1. unfold hr_response. rewrite E1. cbn [r_bind]. rewrite B1.
  rewrite header_u32_4, header_u32_0, header_u32_8 by auto. rewrite NP.
  change (zlen [p_code p]) with 1 in *. pose proof (zlen_nonneg (p_body p)).
  destruct (1 + zlen (p_body p) <? 1) eqn:E2; [apply Z.ltb_lt in E2; lia|].
  assert (BL : (0 < length (buffered r1))%nat).
  { assert (G : (length (c_data (mkChunk d None)) <= RSIZE - 0)%nat \/ (RSIZE - 0 < length d)%nat) by (simpl; lia).
    unfold sl_Read in E1. simpl in E1. unfold sl_grow in E1. simpl in E1.
    assert (RL : (RSIZE <? 12)%nat = false) by (apply Nat.ltb_ge; pose proof RSIZE_pos; lia).
    rewrite RL in E1. rewrite !Nat.sub_0_r in E1.
    change (0 <? 12)%nat with true in E1. simpl in E1.
    change (0 <? 12)%nat with true in E1. cbn iota in E1.
    change (12 <? 0)%nat with false in E1. cbn iota in E1.
    destruct (length d <=? RSIZE)%nat eqn:LD.
    - assert (SF : sl_fill cs (overwrite (arr_of [[]; repeat 0 RSIZE] 1) 0 d) 0 RSIZE (length d) 12 =
        (overwrite (arr_of [[]; repeat 0 RSIZE] 1) 0 d, length d, None, cs)).
      { assert ((length d <? 12)%nat = false) by (apply Nat.ltb_ge; lia).
        destruct cs; simpl; rewrite H0; auto. }
      rewrite SF in E1.
      assert (X: (12 <=? length d)%nat = true) by (apply Nat.leb_le; lia). rewrite X in E1.
      inversion E1; subst. rewrite buffered_length by auto. simpl. lia.
    - apply Nat.leb_gt in LD. 
      assert (LF : length (firstn RSIZE d) = RSIZE) by (rewrite firstn_length; lia). rewrite LF in E1.
      pose proof RSIZE_pos.
      assert (X: (12 <=? RSIZE)%nat = true) by (apply Nat.leb_le; lia). rewrite X in E1.
      inversion E1; subst. rewrite buffered_length by auto. simpl. lia. }
  destruct (ReadByte_full r1 _ I1 S1 BL) as (r2 & E3 & I2 & S2).
  rewrite E3. cbn [r_bind]. simpl hd. simpl tl in S2.
  replace (1 + zlen (p_body p) - 1) with (zlen (p_body p)) by lia. rewrite zlen_to_nat.
  destruct (Read_prefix r2 _ _ I2 S2) as (r3 & x & E4 & I3 & Z3 & F3 & B3 & S3).
  rewrite E4. cbn [r_bind]. eauto.
Qed.
Print Assumptions C04_rc1_first_read_partial.

(** C05 is false for RC4 (the default) and RC1: the server's ping reply carries code bytes that
    its length field does not announce, and the next response is misread. *)
Theorem C05_ping_reply_in_sync_refuted : forall rc, rc = RC4 \/ rc = RC1 ->
  exists p out, response_ok rc p /\ p_msg p <> PING /\
    wire_bytes rc [OpRes (mkRes PING PING_ID 0 []); OpRes p; OpFlush] = Some out /\
    match hr_ping (r_init [mkChunk out None]) with
    | ROk r1 _ => fst (read_responses rc 1 r1) <> [p]
    | _ => False
    end.
Proof.
  intros rc H. exists (mkRes 5 7 0 [1;2;3;4;5;6;7;8]).
  destruct H as [-> | ->]; eexists; (split; [|split; [|split]]).
  3, 7: vm_compute; reflexivity.
  all: vm_compute; repeat split; try congruence.
Qed.
Print Assumptions C05_ping_reply_in_sync_refuted.

(** Both ping readers consume a documented 12-byte ping frame exactly, whatever follows; with
    RC0 this is what the server sends (C03 covers pings). Missing: RC4 and RC1 servers. *)
Theorem C05_ping_reply_in_sync_partial : forall rc script T,
  carries script (response_frame rc (mkRes PING PING_ID 0 []) ++ T) ->
  (exists r1, hr_ping (r_init script) = ROk r1 tt /\ strm r1 T) /\
  (exists r1 x, hr_response rc (r_init script) = ROk r1 (mkRs PING PING_ID 0 x) /\
     slice_bytes (r_store r1) x = [] /\ strm r1 T).
Proof.
  intros rc script T C. apply strm_init in C. split.
  - unfold response_frame in C. simpl p_msg in C.
    replace (code_bytes rc PING _) with (@nil Z) in C by reflexivity.
    simpl p_id in C. simpl p_body in C. rewrite !app_nil_r in C.
    destruct (Read_prefix _ _ _ (rinv_init _) C) as (r1 & h & E1 & I1 & Z1 & F1 & B1 & S1).
    exists r1. split; auto. unfold hr_ping. rewrite header_length in E1. rewrite E1. cbn [r_bind].
    rewrite B1, header_u32_0, header_u32_8 by (unfold u32_ok, PING, PING_ID; lia). reflexivity.
  - assert (K : response_ok rc (mkRes PING PING_ID 0 [])).
    { unfold response_ok; simpl. unfold code_bytes; simpl. unfold u32_ok, PING, PING_ID, zlen; simpl; lia. }
    destruct (hr_response_ok rc _ (mkRes PING PING_ID 0 []) T (or_intror eq_refl) (rinv_init _) K C) as (r1 & x & E & _ & _ & B & S).
    exists r1, x. auto.
Qed.
Print Assumptions C05_ping_reply_in_sync_partial.

(** At every moment of every history, with every pattern of socket failures. *)
Theorem C06_output_buffering_transparent : forall rc script ops,
  exists ds, Forall2 (emits rc) ops ds /\
  match hw_run rc (w_init script) ops with
  | WOk w | WErr w => exists rest, concat ds = w_out w ++ rest
  | WPanic => False
  end.
Proof.
  intros rc script ops. destruct (hw_run_post rc ops (w_init script) (winv_init _)) as (ds & F & P).
  exists ds. split; auto. destruct (hw_run rc (w_init script) ops) as [w|w|]; simpl in P; auto.
  destruct P as [_ S]. unfold sent in S. simpl in S. exists (pending w). auto.
Qed.
Print Assumptions C06_output_buffering_transparent.

Theorem C06_flush_leaves_nothing : forall rc script ops w,
  hw_run rc (w_init script) (ops ++ [OpFlush]) = WOk w ->
  exists ds, Forall2 (emits rc) ops ds /\ w_out w = concat ds.
Proof.
  intros rc script ops w H. destruct (hw_run_post rc ops (w_init script) (winv_init _)) as (ds & F & P).
  exists ds. split; auto. rewrite hw_run_app in H.
  destruct (hw_run rc (w_init script) ops) as [w1|w1|]; simpl in *; try discriminate.
  destruct P as [I S]. pose proof (flush_post w1 I) as Q. destruct (w_flush w1); simpl in H; inversion H; subst.
  destruct Q as (_ & _ & _ & _ & Q). rewrite Q, S. auto.
Qed.
Print Assumptions C06_flush_leaves_nothing.

(** The outcome of a sequence of reads is a function of the byte stream alone. *)
Theorem C07_reads_fragmentation_independent : forall script S ns,
  carries script S ->
  ((list_sum ns <= length S)%nat ->
     exists os rest, reads (r_init script) ns = Some os /\
        map (@length Z) os = ns /\ S = concat os ++ rest) /\
  ((length S < list_sum ns)%nat -> reads (r_init script) ns = None).
Proof.
  intros script S ns C. apply strm_init in C. split; intros.
  - apply (reads_ok ns _ S (rinv_init _)); auto.
  - apply (reads_fail ns _ S (rinv_init _)); auto.
Qed.
Print Assumptions C07_reads_fragmentation_independent.

Theorem C07_same_stream_same_reads : forall s1 s2 S ns, carries s1 S -> carries s2 S ->
  reads (r_init s1) ns = reads (r_init s2) ns.
Proof.
  assert (U : forall (a b : list (list Z)) x y, map (@length Z) a = map (@length Z) b ->
      concat a ++ x = concat b ++ y -> a = b).
  { induction a; destruct b; intros x y M E; simpl in *; try discriminate; auto.
    inversion M. rewrite <- !app_assoc in E.
    assert (a = l).
    { apply (f_equal (firstn (length a))) in E. rewrite firstn_app_exact in E by auto.
      rewrite H0 in E. rewrite firstn_app_exact in E by auto. auto. }
    subst. f_equal. apply app_inv_head in E. eapply IHa; eauto. }
  intros s1 s2 S ns C1 C2.
  destruct (C07_reads_fragmentation_independent s1 S ns C1) as [A1 B1].
  destruct (C07_reads_fragmentation_independent s2 S ns C2) as [A2 B2].
  destruct (le_lt_dec (list_sum ns) (length S)).
  - destruct A1 as (o1 & t1 & E1 & M1 & D1); auto. destruct A2 as (o2 & t2 & E2 & M2 & D2); auto.
    rewrite E1, E2. f_equal. apply (U o1 o2 t1 t2); congruence.
  - rewrite B1, B2; auto.
Qed.
Print Assumptions C07_same_stream_same_reads.

(** A cut at any byte position: exactly the complete frames come out, then the loop ends.
    Missing: "followed by an error" - the end can be a panic, see the refutation. *)
Theorem C08_truncation_no_phantom_frame_partial : forall qs q p t script fuel,
  Forall request_ok qs -> request_ok q -> request_frame q = p ++ t -> t <> [] ->
  carries script (concat (map request_frame qs) ++ p) -> (length qs < fuel)%nat ->
  exists e, read_requests fuel (r_init script) = (qs, e) /\ e <> EndFuel /\
    (p = [] -> e = EndErr EEOF).
Proof.
  intros qs q p t script fuel K Kq E N C L. apply strm_init in C.
  destruct (read_requests_ok qs fuel _ p (rinv_init _) K C) as (r' & I' & S' & ->). lia.
  destruct (read_requests_cut (fuel - length qs) r' q p t) as (e & -> & H1 & H2); auto. lia.
  exists e. rewrite app_nil_r. auto.
Qed.
Print Assumptions C08_truncation_no_phantom_frame_partial.

(** A peer that sends one byte and closes the connection crashes the reader. *)
Theorem C08_truncation_error_refuted :
  exists q p t script, request_ok q /\ request_frame q = p ++ t /\ t <> [] /\ carries script p /\
    read_requests 1 (r_init script) = ([], EndPanic).
Proof.
  exists (mkReq 1 2 [3]), [1], (tl (request_frame (mkReq 1 2 [3]))), [mkChunk [1] (Some EEOF)].
  split; [vm_compute; repeat split; congruence|]. split; [reflexivity|]. split; [discriminate|].
  split; [apply carries_eof|]. vm_compute. reflexivity.
Qed.
Print Assumptions C08_truncation_error_refuted.

(** The same for a connection lost inside a body. *)
Theorem C08_truncated_body_panics_refuted :
  exists q p t script, request_ok q /\ request_frame q = p ++ t /\ t <> [] /\ (12 <= length p)%nat /\
    carries script p /\ read_requests 1 (r_init script) = ([], EndPanic).
Proof.
  exists (mkReq 1 2 [3;4]), (firstn 13 (request_frame (mkReq 1 2 [3;4]))), [4].
  exists [mkChunk (firstn 12 (request_frame (mkReq 1 2 [3;4]))) None; mkChunk [3] None].
  split; [vm_compute; repeat split; congruence|]. split; [reflexivity|]. split; [discriminate|].
  split; [vm_compute; lia|]. split; [|vm_compute; reflexivity].
  change (firstn 13 (request_frame (mkReq 1 2 [3;4])))
    with (firstn 12 (request_frame (mkReq 1 2 [3;4])) ++ [3] ++ []).
  repeat constructor.
Qed.
Print Assumptions C08_truncated_body_panics_refuted.

(** Bodies handed out keep their bytes through every later history of reads (also failing
    ones, also on hostile input: [script] is arbitrary). *)
Theorem C09_bodies_immutable : forall rc script before r, 
  run_rops rc (r_init script) before = Some r ->
  forall later r2,
  (forall r1 q, hr_request r = ROk r1 q -> run_rops rc r1 later = Some r2 ->
     slice_bytes (r_store r2) (rq_body q) = slice_bytes (r_store r1) (rq_body q)) /\
  (forall r1 p, hr_response rc r = ROk r1 p -> run_rops rc r1 later = Some r2 ->
     slice_bytes (r_store r2) (rs_body p) = slice_bytes (r_store r1) (rs_body p)).
Proof.
  intros rc script before r B later r2.
  destruct (run_rops_frame rc before _ _ (rinv_init script) B) as [I _].
  split; intros r1 q E L.
  - destruct (hr_request_frozen _ _ _ I E) as [I1 Z]. destruct (run_rops_frame rc later _ _ I1 L) as [_ F].
    apply F; auto.
  - destruct (hr_response_frozen _ _ _ _ I E) as [I1 Z]. destruct (run_rops_frame rc later _ _ I1 L) as [_ F].
    apply F; auto.
Qed.
Print Assumptions C09_bodies_immutable.

(** A stream of well-formed responses and of frames too short for their 4-byte code, in any
    order: each short frame is reported as a protocol error with its whole body, and every
    other frame is read correctly. *)
Inductive item := Good (p : response) | Short (msg id : Z) (body : list Z).
Definition item_ok (i : item) : Prop :=
  match i with
  | Good p => response_ok RC4 p /\ p_msg p <> PING
  | Short msg id body => u32_ok msg /\ u32_ok id /\ msg <> PING /\ (length body < 4)%nat
  end.
Definition item_bytes (i : item) : list Z :=
  match i with
  | Good p => response_frame RC4 p
  | Short msg id body => header msg (zlen body) id ++ body
  end.
Definition item_view (i : item) : response :=
  match i with Good p => p | Short msg id body => mkRes msg id RC_PROTOCOL_ERROR body end.

Theorem C10_short_response_protocol_error : forall items script fuel,
  Forall item_ok items -> carries script (concat (map item_bytes items)) ->
  (length items < fuel)%nat ->
  read_responses RC4 fuel (r_init script) = (map item_view items, EndErr EEOF).
Proof.
  intros items script fuel K C L. apply strm_init in C. pose proof (rinv_init script) as I.
  revert C I. generalize (r_init script) as r. revert fuel L K.
  induction items as [|i items IH]; intros fuel L K r C I.
  - simpl. apply read_responses_eof; auto.
  - inversion K as [|? ? K1 K2]; subst. destruct fuel as [|k]; [simpl in L; lia|]. simpl in L.
    cbn [map concat] in C. cbn [read_responses map]. destruct i as [p|msg id body]; simpl in K1.
    + destruct K1 as [K1 NP].
      destruct (hr_response_ok RC4 r p _ ltac:(left; discriminate) I K1 C) as (r1 & x & E & I1 & _ & B1 & S1).
      rewrite E, (IH k) by (auto; lia). simpl. rewrite B1. apply Z.eqb_neq in NP. rewrite NP.
      destruct p; auto.
    + destruct K1 as (K3 & K4 & NP & SH). cbn [item_bytes] in C. rewrite <- app_assoc in C.
      assert (SH' : zlen body < rc_len RC4) by (unfold zlen; simpl; lia).
      destruct (hr_response_short RC4 r msg id body _ I K3 K4 NP SH' C) as (r1 & x & E & I1 & B1 & S1).
      rewrite E, (IH k) by (auto; lia). simpl. rewrite B1. auto.
Qed.
Print Assumptions C10_short_response_protocol_error.

(** RC1: empty frames. *)
Theorem C10_short_response_protocol_error_rc1 : forall hs script fuel,
  Forall (fun h => u32_ok (fst h) /\ u32_ok (snd h) /\ fst h <> PING) hs ->
  carries script (concat (map (fun h => header (fst h) 0 (snd h)) hs)) ->
  (length hs < fuel)%nat ->
  read_responses RC1 fuel (r_init script) =
    (map (fun h => mkRes (fst h) (snd h) RC_PROTOCOL_ERROR []) hs, EndErr EEOF).
Proof.
  intros hs script fuel K C L. apply strm_init in C. pose proof (rinv_init script) as I.
  revert C I. generalize (r_init script) as r. revert fuel L K.
  induction hs as [|[msg id] hs IH]; intros fuel L K r C I.
  - simpl. apply read_responses_eof; auto.
  - inversion K as [|? ? (K1 & K2 & K3) K4]; subst. destruct fuel as [|k]; [simpl in L; lia|]. simpl in L.
    cbn [map concat fst snd] in *. cbn [read_responses map].
    assert (SH' : zlen (@nil Z) < rc_len RC1) by reflexivity.
    destruct (hr_response_short RC1 r msg id [] _ I K1 K2 K3 SH' C) as (r1 & x & E & I1 & B1 & S1).
    rewrite E, (IH k) by (auto; lia). simpl; rewrite B1. auto.
Qed.
Print Assumptions C10_short_response_protocol_error_rc1.

(* ---------------------------------------------------------------------- *)
(** Concrete instances of the hypotheses. *)
Definition ops_ex := [OpReq (mkReq 1 2 [3;4;5]); OpPing; OpFlush; OpReq (mkReq 7 8 (repeat 9 (Z.to_nat 5000)))].
Example C01_hyp : Forall request_call ops_ex.
Proof. repeat constructor; vm_compute; congruence. Qed.
Example C01_run :
  (match wire_bytes RC4 (ops_ex ++ [OpFlush]) with
  | Some out => read_requests 4 (r_init [mkChunk (firstn 30 out) None; mkChunk [] None;
                  mkChunk (skipn 30 out) (Some EEOF)])
  | None => ([], EndPanic)
  end) = (requests_of ops_ex, EndErr EEOF).
Proof. vm_compute. reflexivity. Qed.
Example C02_hyp : let ops := [OpRes (mkRes 1 2 3 [4;5]); OpFlush; OpRes (mkRes 9 9 0 [])] in
  Forall (response_call RC4) ops /\ Forall (fun p => p_msg p <> PING) (responses_of ops).
Proof. split; repeat constructor; vm_compute; congruence. Qed.
Example C03_hyp : Forall (response_call RC0) [OpRes (mkRes 1 2 3 [4;5]); OpRes (mkRes PING PING_ID 0 []); OpFlush].
Proof. repeat constructor; vm_compute; congruence. Qed.
Example C06_failing_socket :
  match hw_run RC4 (w_init [None; Some 3%nat]) [OpReq (mkReq 1 2 [3]); OpFlush; OpReq (mkReq 1 2 [3]); OpFlush] with
  | WErr w => length (w_out w) = 16%nat
  | _ => False
  end.
Proof. vm_compute. reflexivity. Qed.
Example C08_hyp : exists script, Forall request_ok [mkReq 1 2 [3]] /\ request_ok (mkReq 4 5 [6;7]) /\ carries script (concat (map request_frame [mkReq 1 2 [3]]) ++ firstn 13 (request_frame (mkReq 4 5 [6;7]))).
Proof.
  eexists. repeat split; try (repeat constructor; vm_compute; congruence).
Qed.
Example C09_hyp :
  let script := [mkChunk (concat (map request_frame [mkReq 1 2 [3]; mkReq 1 2 [3]; mkReq 5 6 [7;8]])) None] in
  match run_rops RC4 (r_init script) [RdRequest] with
  | Some r => match hr_request r with
              | ROk r1 q => match run_rops RC4 r1 [RdRequest; RdPing] with
                            | Some r2 => slice_bytes (r_store r2) (rq_body q)
                            | None => [] end
              | _ => [] end
  | None => [] end = [3].
Proof. vm_compute. reflexivity. Qed.
Example C10_hyp : Forall item_ok [Good (mkRes 1 2 3 [4]); Short 5 6 [7;8]; Short 5 6 []; Good (mkRes 1 2 3 [])].
Proof. repeat constructor; vm_compute; congruence. Qed.
