(** Invariants of the pair: what each end has read is a beginning of what the other end has written. *)
From Coq Require Import ZArith List Bool Arith Lia Permutation.
Import ListNotations.
From Verif Require Import Base WireModel WireSpec WireWriterProofs WireReaderProofs WireProps PairModel PairSpec PairWire.
From Verif Require HolderModel HolderSpec HolderProofs HolderPolite HolderProps PairLink ServerModel ServerSpec ServerProofs ServerTrace ServerIds ServerEnd ServerProps.
Open Scope Z_scope.

Notation hobs := HolderModel.obs.
Notation sobs := ServerModel.obs.
Notation res := ServerModel.res.

(** ** lists *)
Lemma client_app a b : client (a ++ b) = client a ++ client b. Proof. apply flat_map_app. Qed.
Lemma server_app a b : server (a ++ b) = server a ++ server b. Proof. apply flat_map_app. Qed.
Lemma reads_app a b : reads (a ++ b) = reads a ++ reads b. Proof. apply flat_map_app. Qed.
Lemma client_CO o : client (map CO o) = o. Proof. unfold client. induction o; cbn; [reflexivity|]. now f_equal. Qed.
Lemma server_CO o : server (map CO o) = []. Proof. unfold server. induction o; cbn; auto. Qed.
Lemma reads_CO o : reads (map CO o) = []. Proof. unfold reads. induction o; cbn; auto. Qed.
Lemma client_SO o : client (map SO o) = []. Proof. unfold client. induction o; cbn; auto. Qed.
Lemma server_SO o : server (map SO o) = o. Proof. unfold server. induction o; cbn; [reflexivity|]. now f_equal. Qed.
Lemma reads_SO o : reads (map SO o) = []. Proof. unfold reads. induction o; cbn; auto. Qed.
Definition hgots (h : list hobs) : list (Z * Z * list Z) := flat_map (fun o => match o with HolderModel.OGot i c b => [(i, c, b)] | _ => [] end) h.
Lemma hgots_app a b : hgots (a ++ b) = hgots a ++ hgots b. Proof. apply flat_map_app. Qed.
Lemma gots_client t : gots t = hgots (client t). Proof. reflexivity. Qed.
Lemma firstn_more {A} n (a b : list A) : (n <= length a)%nat -> firstn n (a ++ b) = firstn n a.
Proof. intro L. rewrite firstn_app. replace (n - length a)%nat with 0%nat by lia. cbn. apply app_nil_r. Qed.
Lemma firstn_nth {A} n (l : list A) x : nth_error l n = Some x -> firstn (S n) l = firstn n l ++ [x].
Proof. revert l. induction n as [|n IH]; intros [|y l] E; try discriminate; cbn in *; [now injection E as ->|]. f_equal. now apply IH. Qed.
Lemma requests_of_app a b : requests_of (a ++ b) = requests_of a ++ requests_of b.
Proof. induction a as [|[] a IH]; cbn; now rewrite ?IH. Qed.
Lemma responses_of_app a b : responses_of (a ++ b) = responses_of a ++ responses_of b.
Proof. induction a as [|[] a IH]; cbn; now rewrite ?IH. Qed.
Lemma Forall_snoc {A} (P : A -> Prop) l x : Forall P l -> P x -> Forall P (l ++ [x]).
Proof. intros. apply Forall_app. split; [assumption|now constructor]. Qed.

(** ** the server's steps that neither read nor write *)
Definition alive (s : ServerModel.st) : bool := match ServerModel.wp s with ServerModel.WNote | ServerModel.WDone => false | _ => true end.
Definition silent (s : ServerModel.st) (e : ServerModel.ev) : Prop :=
  match e with
  | ServerModel.NetReq _ | ServerModel.NetPing _ | ServerModel.WriteFail => False
  | ServerModel.Writer => match ServerModel.wp s with ServerModel.WWrite _ | ServerModel.WFlush | ServerModel.WEnd => False | _ => True end
  | _ => True
  end.
Definition proper_comp (e : ServerModel.ev) : Prop := match e with ServerModel.Complete r c b => u32_ok c /\ u32_ok (4 + zlen b) | _ => True end.
Definition ok_comp (c : ServerModel.rid * Z * list Z) : Prop := u32_ok (snd (fst c)) /\ u32_ok (4 + zlen (snd c)).
Lemma silent_step s e o s' : ServerProofs.SI s -> silent s e -> proper_comp e -> ServerModel.step s e = (o, Some s') ->
  ServerSpec.writes o = [] /\ ServerSpec.reqs o = [] /\ ServerSpec.pings o = [] /\ ServerModel.nreq s' = ServerModel.nreq s /\ ServerModel.idOf s' = ServerModel.idOf s /\
  (alive s' = true -> alive s = true) /\ Forall ok_comp (ServerSpec.comps o) /\ (forall r id, ~ In (ServerModel.OReq r id) o).
Proof.
  intros I SI PC E. apply ServerProofs.step_eff in E; [|exact I]. unfold alive. unfold silent, proper_comp in *.
  assert (CA : u32_ok ServerModel.RcCanceled /\ u32_ok (4 + zlen (@nil Z))) by (unfold u32_ok, ServerModel.RcCanceled, zlen; cbn; lia).
  destruct E; cbn [ServerModel.w_inFly ServerModel.w_comp ServerModel.w_new ServerModel.w_out ServerModel.w_closed ServerModel.w_buf ServerModel.w_notes ServerModel.w_csRead ServerModel.w_csWrite ServerModel.w_eof ServerModel.w_rp ServerModel.w_wp ServerModel.w_kp ServerModel.w_waits ServerModel.w_blk ServerModel.notify ServerModel.put ServerModel.clean_buffer ServerModel.wp ServerModel.nreq ServerModel.idOf];
    try contradiction; repeat match goal with H : ServerModel.wp _ = _ |- _ => rewrite H in * end; try contradiction;
    (split; [reflexivity|]); (split; [reflexivity|]); (split; [reflexivity|]); (split; [reflexivity|]); (split; [reflexivity|]); (split; [first [tauto | discriminate | (repeat match goal with H : _ \/ _ |- _ => destruct H as [H|H] end; rewrite H; reflexivity)]|]);
    (split; [unfold ServerSpec.comps; cbn [flat_map app]; first [apply Forall_nil | (apply Forall_cons; [unfold ok_comp; cbn [fst snd]; tauto|apply Forall_nil])]|]); intros; cbn; intuition discriminate.
Qed.

(** ** what the server's machine says about the answers it gives *)
Lemma ans_facts m s T y : ServerProofs.reach m s T -> In y (ServerSpec.answers T) ->
  exists k code b, y = ServerModel.mkRes (ServerModel.idOf s k) (ServerModel.wire_code m code) b (Some k) /\ In (k, code, b) (ServerSpec.comps T) /\ (k < ServerModel.nreq s)%nat.
Proof.
  intros R H. pose proof (ServerTrace.RI_reach m s T R) as I. assert (H1 : In y (map (ServerSpec.response_of m (ServerModel.idOf s)) (ServerSpec.comps T))).
  { eapply Permutation_in; [exact (ServerTrace.ri_perm _ _ _ I)|]. apply in_or_app. now left. }
  apply in_map_iff in H1. destruct H1 as ([[k code] b] & E & H1). exists k, code, b. split; [now symmetry|]. split; [exact H1|].
  apply (ServerTrace.ri_lt _ _ _ I). apply (ServerTrace.ri_comp _ _ _ I). apply in_map_iff. now exists (k, code, b).
Qed.
Lemma ans_nodup m s T : ServerProofs.reach m s T -> NoDup (map ServerModel.res_req (ServerSpec.answers T)).
Proof.
  intro R. pose proof (ServerTrace.RI_reach m s T R) as I. pose proof (ServerTrace.ri_once _ _ _ I) as N.
  assert (N2 : NoDup (map ServerModel.res_req (map (ServerSpec.response_of m (ServerModel.idOf s)) (ServerSpec.comps T)))).
  { rewrite map_map. rewrite (map_ext _ (fun c => Some (ServerTrace.crid c))) by (now intros [[k c] b]). rewrite <- (map_map ServerTrace.crid Some).
    clear - N. induction N as [|x l A B IH]; cbn; constructor; [|exact IH]. intro H. apply in_map_iff in H. destruct H as (z & E & H). injection E as ->. contradiction. }
  eapply Permutation_NoDup in N2; [|apply Permutation_map, Permutation_sym; exact (ServerTrace.ri_perm _ _ _ I)]. rewrite map_app in N2. clear - N2.
  induction (map ServerModel.res_req (ServerSpec.answers T)) as [|x l IH]; [constructor|]. cbn in N2. inversion_clear N2 as [|? ? A B]. constructor; [|now apply IH]. intro H. apply A. apply in_or_app. now left.
Qed.

Section Inv.
Variable rc : rctype.
Variable m : option ServerModel.rcmap.
Variable msg : HolderModel.rid -> Z.
Variable body : HolderModel.rid -> list Z.
Variable dial : bool.
Hypothesis HR : proper_requests msg body.
Hypothesis HM : proper_map m.
Hypothesis RC : rc = RC0 \/ (rc = RC4 /\ dial = false).

Definition notping (q : request) : bool := negb (q_msg q =? PING).
Definition to_ans (x : res) : list PairLink.ans :=
  match ServerModel.res_req x with
  | Some k => [(k, match rc with RC0 => RC_OK | _ => ServerModel.res_code x end, ServerModel.res_body x)]
  | None => []
  end.
(** the client's writer *)
Record CW (w : bufw) (a : bool) (ws : list (Z * HolderModel.rid)) (cops : list wop) : Prop := {
  cw_w : wrote rc cops w a;
  cw_c : Forall request_call cops;
  cw_f : filter notping (requests_of cops) = map (sentq msg body) ws;
  cw_p : Forall (fun q => q_msg q = PING -> q_id q = PING_ID) (requests_of cops);
  cw_4 : rc = RC4 -> Forall (fun q => q_msg q <> PING) (requests_of cops) }.
(** the server's reader *)
Record SR (s : ServerModel.st) (f : nat -> request) (n : nat) (cops : list wop) (rds : list (nat * request)) (T : list sobs) : Prop := {
  sr_n : (n <= length (requests_of cops))%nat;
  sr_f : filter notping (firstn n (requests_of cops)) = map f (seq 0 (ServerModel.nreq s));
  sr_r : rds = map (fun k => (k, f k)) (seq 0 (ServerModel.nreq s));
  sr_id : forall k, (k < ServerModel.nreq s)%nat -> ServerModel.idOf s k = q_id (f k);
  sr_pg : Forall (fun id => id = PING_ID) (ServerSpec.pings T);
  sr_4 : rc = RC4 -> ServerSpec.pings T = [];
  sr_d : ServerSpec.distinct_ids T }.
(** the server's writer *)
Record SW (s : ServerModel.st) (w : bufw) (f : nat -> request) (T : list sobs) (sops : list wop) (D : list res) : Prop := {
  sw_w : wrote rc sops w (alive s);
  sw_c : Forall (response_call rc) sops;
  sw_f : responses_of sops = map (frame_of f) D;
  sw_x : D = ServerSpec.writes T \/ (alive s = false /\ exists x, D = ServerSpec.writes T ++ [x]);
  sw_ans : exists l, ServerSpec.answers T = filter ServerSpec.for_request D ++ l;
  sw_pong : Forall (fun x => ServerSpec.for_request x = false -> x = ServerSpec.pong_of PING_ID /\ rc <> RC4) D;
  sw_comps : Forall ok_comp (ServerSpec.comps T) }.
(** the client's reader *)
Record CR (c : HolderModel.conn) (h : list hobs) (f : phase) (n : nat) (D : list res) : Prop := {
  cr_n : (n <= length D)%nat;
  cr_k : PairLink.K c h (flat_map to_ans (firstn n D));
  cr_g : length (hgots h) = length (flat_map to_ans (firstn n D));
  cr_ph : match f with
          | New | Greeted => dial = true /\ h = [] /\ n = 0%nat
          | Running => dial = true -> exists x D', D = x :: D' /\ ServerSpec.for_request x = false /\ (1 <= n)%nat
          end }.
Record J (p : pair) (t : list obs) (cops sops : list wop) (D : list res) : Prop := {
  j_c : HolderProofs.reach (cli p) (client t);
  j_s : ServerProofs.reach m (srv p) (server t);
  j_cw : CW (cwr p) (cok p) (sends t) cops;
  j_sr : SR (srv p) (sreq p) (sread p) cops (reads t) (server t);
  j_sw : SW (srv p) (swr p) (sreq p) (server t) sops D;
  j_cr : CR (cli p) (client t) (ph p) (cread p) D;
  j_new : ph p = New -> cok p = true }.

Lemma J_init csc ssc : J (p_init dial m csc ssc) [] [] [] [].
Proof.
  constructor; cbn.
  - constructor.
  - constructor.
  - constructor; cbn; intros; first [apply wrote_init|apply Forall_nil|reflexivity].
  - constructor; cbn; intros; try first [apply Forall_nil|reflexivity|lia]. intros p r id q E. now destruct p.
  - constructor; cbn; intros; first [apply wrote_init|apply Forall_nil|reflexivity|(now left)|now exists []].
  - constructor; cbn; intros; try first [apply PairLink.K_init|reflexivity|lia]. destruct dial; [now repeat split|discriminate].
  - reflexivity.
Qed.
(** the server's k-th request is the client's k-th frame *)
Lemma SR_nth p t cops sops D k : J p t cops sops D -> (k < ServerModel.nreq (srv p))%nat -> exists id r, nth_error (sends t) k = Some (id, r) /\ sreq p k = sentq msg body (id, r).
Proof.
  intros H L. pose proof (sr_f _ _ _ _ _ _ (j_sr _ _ _ _ _ H)) as F. pose proof (cw_f _ _ _ _ (j_cw _ _ _ _ _ H)) as C.
  rewrite <- (firstn_skipn (sread p) (requests_of cops)), filter_app, F in C.
  assert (N : nth_error (map (sentq msg body) (sends t)) k = Some (sreq p k)).
  { rewrite <- C, nth_error_app1 by (rewrite map_length, seq_length; exact L). rewrite nth_error_map. rewrite (nth_error_nth' _ 0%nat) by (rewrite seq_length; exact L). cbn. now rewrite seq_nth by exact L. }
  rewrite nth_error_map in N. destruct (nth_error (sends t) k) as [[id r]|]; [|discriminate]. cbn in N. injection N as N. exists id, r. split; [reflexivity|now symmetry].
Qed.
Lemma D_facts p t cops sops D y k : J p t cops sops D -> In y D -> ServerModel.res_req y = Some k ->
  exists code b, y = ServerModel.mkRes (ServerModel.idOf (srv p) k) (ServerModel.wire_code m code) b (Some k) /\ In (k, code, b) (comps t) /\ (k < ServerModel.nreq (srv p))%nat /\ u32_ok code /\ u32_ok (4 + zlen b).
Proof.
  intros H I E. destruct (sw_ans _ _ _ _ _ _ (j_sw _ _ _ _ _ H)) as [l Q]. destruct (ans_facts m (srv p) (server t) y (j_s _ _ _ _ _ H)) as (k' & code & b & Y & Q1 & Q2).
  { rewrite Q. apply in_or_app. left. apply filter_In. split; [exact I|]. unfold ServerSpec.for_request. now rewrite E. }
  rewrite Y in E. cbn in E. injection E as ->. exists code, b. split; [exact Y|]. split; [exact Q1|]. split; [exact Q2|].
  pose proof (sw_comps _ _ _ _ _ _ (j_sw _ _ _ _ _ H)) as F. rewrite Forall_forall in F. exact (F _ Q1).
Qed.

(** *** each part under each kind of step *)
Lemma wire_code_u32 c : u32_ok c -> u32_ok (ServerModel.wire_code m c).
Proof.
  intro U. unfold ServerModel.wire_code. destruct (_ =? _) eqn:K; [|exact U]. rewrite ServerProps.kind_mod in K. apply Z.eqb_eq in K. change ServerModel.RcInternal with 3 in K.
  assert (F : u32_ok (Z.lor (Z.ldiff c ServerModel.RcKindMask) ServerModel.RcFatal)) by (rewrite ServerProps.to_fatal; unfold u32_ok in *; pose proof (Z.mod_le c 8); pose proof (Z_div_mod_eq_full c 8); lia).
  destruct m as [l|]; [|exact F]. destruct (negb _) eqn:N; [|exact F]. unfold ServerModel.rc_get in *. destruct (find _ l) as [[a b]|] eqn:Q; [|discriminate N]. apply find_some in Q. destruct Q as [Q _].
  cbn in HM. rewrite Forall_forall in HM. exact (HM _ Q).
Qed.
Lemma RC_ok : rc <> RC1. Proof. destruct RC as [-> |[-> _]]; discriminate. Qed.
Lemma filter_all {A} (f : A -> bool) l : Forall (fun x => f x = true) l -> filter f l = l.
Proof. induction 1 as [|x l H F IH]; cbn; [reflexivity|]. now rewrite H, IH. Qed.

(** a call of the client's writer *)
Definition carried (o : wop) : list (Z * HolderModel.rid) -> list (Z * HolderModel.rid) -> Prop :=
  fun ws ws' => match o with
                | OpReq q => exists x, q = sentq msg body x /\ ws' = ws ++ [x]
                | OpPing => ws' = ws /\ rc = RC0
                | OpFlush => ws' = ws
                | OpRes _ => False
                end.
Lemma CW_op w ws ws' cops o : CW w true ws cops -> request_call o -> carried o ws ws' ->
  match hw_op rc w o with WOk w' => CW w' true ws' (cops ++ [o]) | WErr w' => CW w' false ws' (cops ++ [o]) | WPanic => False end.
Proof.
  intros [W C F P Q] K G. pose proof (wrote_step rc cops w o W) as S.
  assert (X : forall w' a, wrote rc (cops ++ [o]) w' a -> CW w' a ws' (cops ++ [o])).
  { intros w' a H. constructor; [exact H|now apply Forall_snoc| | |].
    - rewrite requests_of_app, filter_app, F. destruct o as [q| |q|]; cbn in G.
      + destruct G as (x & -> & ->). cbn [requests_of filter]. unfold notping at 1. cbn [q_msg sentq]. destruct (HR (snd x)) as (_ & N & _). apply Z.eqb_neq in N. rewrite N. cbn [negb]. now rewrite map_app.
      + contradiction.
      + destruct G as [-> _]. cbn. now rewrite app_nil_r.
      + subst ws'. cbn. now rewrite app_nil_r.
    - rewrite requests_of_app. apply Forall_app. split; [exact P|]. destruct o as [q| |q|]; cbn in *; try contradiction; try (repeat constructor).
      destruct G as (x & -> & _). cbn. intro N. now elim (proj1 (proj2 (HR (snd x)))).
    - intro R4. rewrite requests_of_app. apply Forall_app. split; [now apply Q|]. destruct o as [q| |q|]; cbn in *; try contradiction; try (repeat constructor).
      + destruct G as (x & -> & _). exact (proj1 (proj2 (HR (snd x)))).
      + destruct G as [_ G]. congruence. }
  destruct (hw_op rc w o); [now apply X|now apply X|exact S].
Qed.
Lemma SR_more s f n cops rds T o : SR s f n cops rds T -> SR s f n (cops ++ [o]) rds T.
Proof. intros [a b c d e g i]. constructor; try assumption; rewrite requests_of_app; [rewrite app_length; lia|now rewrite firstn_more]. Qed.
Lemma answered_more T o r : ServerSpec.answered T r -> ServerSpec.answered (T ++ o) r.
Proof. intros (x & H & E). exists x. split; [|exact E]. rewrite ServerTrace.answers_app. apply in_or_app. now left. Qed.
Lemma distinct_quiet T o : ServerSpec.distinct_ids T -> (forall r id, ~ In (ServerModel.OReq r id) o) -> ServerSpec.distinct_ids (T ++ o).
Proof.
  intros H N p r id q E. assert (L : (length p < length T)%nat).
  { destruct (Nat.lt_ge_cases (length p) (length T)) as [L|L]; [exact L|]. exfalso. apply (N r id). apply (f_equal (skipn (length T))) in E. rewrite skipn_app, skipn_all, Nat.sub_diag in E. cbn in E. rewrite E.
    rewrite skipn_app. replace (length T - length p)%nat with 0%nat by lia. apply in_or_app. right. now left. }
  apply (H p r id (skipn (S (length p)) T)). rewrite <- (firstn_skipn (length p) T) at 1.
  assert (A : firstn (length p) T = p). { apply (f_equal (firstn (length p))) in E. rewrite firstn_app, firstn_app, firstn_all, Nat.sub_diag in E. replace (length p - length T)%nat with 0%nat in E by lia. cbn in E. now rewrite !app_nil_r in E. }
  rewrite A. f_equal. apply (f_equal (skipn (length p))) in E. rewrite skipn_app, skipn_app, skipn_all, Nat.sub_diag in E. replace (length p - length T)%nat with 0%nat in E by lia. cbn in E.
  destruct (skipn (length p) T) as [|y l] eqn:Q; [apply (f_equal (@length _)) in Q; rewrite skipn_length in Q; cbn in Q; lia|]. cbn in E. injection E as -> E. f_equal.
  replace (S (length p)) with (1 + length p)%nat by lia. rewrite <- skipn_skipn, Q. reflexivity.
Qed.
Lemma SR_silent s f n cops rds T o s' : SR s f n cops rds T -> ServerModel.nreq s' = ServerModel.nreq s -> ServerModel.idOf s' = ServerModel.idOf s -> ServerSpec.pings o = [] -> (forall r id, ~ In (ServerModel.OReq r id) o) ->
  SR s' f n cops rds (T ++ o).
Proof. intros [a b c d e g i] N I P Q. constructor; rewrite ?N, ?I, ?ServerTrace.pings_app, ?P, ?app_nil_r; try assumption. now apply distinct_quiet. Qed.
Lemma SW_silent s w f T sops D o s' : SW s w f T sops D -> ServerSpec.writes o = [] -> (alive s' = true -> alive s = true) -> Forall ok_comp (ServerSpec.comps o) -> SW s' w f (T ++ o) sops D.
Proof.
  intros [a b c d e g h] W A C. constructor; try assumption.
  - destruct (alive s') eqn:Q; [rewrite (A eq_refl) in a; exact a|]. now apply wrote_dead in a.
  - rewrite ServerTrace.writes_app, W, app_nil_r. destruct d as [d|[d1 d2]]; [now left|]. right. split; [|exact d2]. destruct (alive s') eqn:Q; [|reflexivity]. now rewrite A in d1.
  - destruct e as [l e]. exists (l ++ ServerSpec.answers o). now rewrite ServerTrace.answers_app, e, app_assoc.
  - rewrite ServerTrace.comps_app. apply Forall_app. now split.
Qed.
Lemma CR_more c h f n D x : CR c h f n D -> CR c h f n (D ++ [x]).
Proof.
  intros [a b g d]. constructor; rewrite ?app_length, ?firstn_more by exact a; try assumption; [lia|]. destruct f; try exact d. intro E. destruct (d E) as (y & D' & -> & Y). exists y, (D' ++ [x]). now split.
Qed.

(** ** the steps of the pair *)
Lemma no_gots o : (forall i b d, ~ In (HolderModel.OGot i b d) o) -> hgots o = [].
Proof. induction o as [|x o IH]; intro N; [reflexivity|]. change (x :: o) with ([x] ++ o). rewrite hgots_app, IH by (intros i b d H; apply (N i b d); now right). destruct x as [| i b d | |]; try reflexivity. elim (N i b d). now left. Qed.
Lemma client_t t o : client (t ++ map CO o) = client t ++ o /\ server (t ++ map CO o) = server t /\ reads (t ++ map CO o) = reads t.
Proof. rewrite client_app, client_CO, server_app, server_CO, reads_app, reads_CO, !app_nil_r. now repeat split. Qed.
Lemma server_t t o : client (t ++ map SO o) = client t /\ server (t ++ map SO o) = server t ++ o /\ reads (t ++ map SO o) = reads t.
Proof. rewrite client_app, client_SO, server_app, server_SO, reads_app, reads_SO, !app_nil_r. now repeat split. Qed.
Lemma sentq_call w c h k : HolderProofs.CI c h -> nth_error (HolderSpec.wires h) k = Some w -> request_call (OpReq (sentq msg body w)).
Proof.
  intros I N. cbn [request_call]. unfold request_ok, sentq. cbn [q_msg q_id q_body]. destruct (HR (snd w)) as (A & _ & B). split; [exact A|]. split; [|exact B]. destruct w as [i r]. pose proof (HolderProofs.ci_ids _ _ I _ _ N) as Q. cbn [fst] in *. rewrite Q.
  unfold HolderSpec.nth_id, u32_ok. pose proof (Z.mod_pos_bound (Z.of_nat k) (2 ^ 32 - 2)). lia.
Qed.
Lemma wire_only_send c e o oc i r : HolderModel.step c e = (o, oc) -> In (HolderModel.OWire i r) o -> exists r', e = HolderModel.Send r'.
Proof.
  intros E H. destruct e as [|r0|id code b| |r0 code| | |]; [|now exists r0|..]; exfalso; cbn [HolderModel.step] in E;
    repeat match type of E with
    | ((match ?x with _ => _ end) = _) => let Q := fresh "Q" in destruct x eqn:Q
    | (let _ := _ in _) = _ => cbv zeta in E
    end; injection E as <- _; cbn in H; intuition discriminate.
Qed.
Lemma J_client p t cops sops D e o op : J p t cops sops D -> ph p = Running -> PairLink.is_resp e = false -> ((exists r, e = HolderModel.Send r) -> cok p = true) ->
  c_step rc msg body p e = (o, op) -> HolderSpec.timely (client (t ++ o)) -> exists p' cops', op = Some p' /\ J p' (t ++ o) cops' sops D.
Proof.
  intros H PH NR OK E T. pose proof H as [a b c d f g NW0]. unfold c_step in E. destruct (HolderModel.step (cli p) e) as [o1 oc] eqn:S.
  assert (O : o = map CO o1) by (destruct oc; now injection E as <- _). subst o. destruct (client_t t o1) as (C1 & C2 & C3). rewrite C1 in T.
  destruct (PairLink.K_quiet _ _ _ _ _ _ a (cr_k _ _ _ _ _ g) NR S T) as (c' & -> & K'). injection E as E.
  assert (R' : HolderProofs.reach c' (client t ++ o1)) by (econstructor; eassumption).
  destruct (PairLink.step_reader_same _ _ _ _ NR S) as [_ NG].
  assert (CRN : CR c' (client t ++ o1) (ph p) (cread p) D).
  { destruct g as [g1 g2 g3 g4]. constructor; [exact g1|exact K'| |]. - rewrite hgots_app, (no_gots o1 NG), app_nil_r. exact g3. - rewrite PH in *. exact g4. }
  assert (PL : HolderProofs.CI c' (client t ++ o1)) by (apply (HolderProps.reach_polite c' _ R'); [apply K'|exact T]).
  destruct (PairLink.step_one _ _ _ _ S) as [->|[x ->]].
  - cbn in E. subst op. exists (set_c p c'), cops. split; [reflexivity|]. rewrite app_nil_r in *. constructor; cbn [cli srv cwr cok ph cread swr sread sreq set_c map]; rewrite ?app_nil_r; assumption.
  - assert (Y : (exists i r, x = HolderModel.OWire i r) \/ forall i r, x <> HolderModel.OWire i r) by (destruct x; [left; eauto|right; discriminate..]).
    destruct Y as [(i & r & ->)|Y].
    + cbn [fold_left] in E. unfold c_write in E. cbn [cwr set_c] in E. specialize (OK (wire_only_send _ _ _ _ i r S (or_introl eq_refl))). rewrite OK in c.
      assert (NW : nth_error (HolderSpec.wires (client t ++ [HolderModel.OWire i r])) (length (sends t)) = Some (i, r)).
      { rewrite HolderProofs.wires_app, nth_error_app2; [|reflexivity]. unfold sends. now rewrite Nat.sub_diag. }
      pose proof (CW_op _ _ (sends t ++ [(i, r)]) _ (OpReq (sentq msg body (i, r))) c (sentq_call _ _ _ _ PL NW)) as W.
      assert (SN : sends (t ++ map CO [HolderModel.OWire i r]) = sends t ++ [(i, r)]) by (unfold sends; rewrite C1, HolderProofs.wires_app; reflexivity).
      assert (FIN : forall w a, CW w a (sends t ++ [(i, r)]) (cops ++ [OpReq (sentq msg body (i, r))]) -> J (set_cw (set_c p c') w a) (t ++ map CO [HolderModel.OWire i r]) (cops ++ [OpReq (sentq msg body (i, r))]) sops D).
      { intros w a0 X. constructor; cbn [cli srv cwr cok ph cread swr sread sreq set_c set_cw]; rewrite ?C1, ?C2, ?C3, ?SN; try assumption; [now apply SR_more|congruence]. }
      destruct (hw_op rc (cwr p) (OpReq (sentq msg body (i, r)))) as [w|w|]; [| |exfalso; apply W; cbn; eexists; now split]; subst op; eexists; eexists; (split; [reflexivity|]); apply FIN; apply W; cbn; eexists; now split.
    + assert (E2 : op = Some (set_c p c')) by (subst op; cbn; destruct x; try reflexivity; now elim (Y id r)).
      assert (SN : sends (t ++ map CO [x]) = sends t) by (unfold sends; rewrite C1, HolderProofs.wires_app; destruct x; cbn; rewrite ?app_nil_r; try reflexivity; now elim (Y id r)).
      exists (set_c p c'), cops. split; [exact E2|]. constructor; cbn [cli srv cwr cok ph cread swr sread sreq set_c]; rewrite ?C1, ?C2, ?C3, ?SN; assumption.
Qed.
(** writer calls at the client *)
Lemma J_cwrite p t cops sops D o op : J p t cops sops D -> ph p <> New -> cok p = true -> (o = OpFlush \/ o = OpPing /\ rc = RC0) -> c_write rc p o = op ->
  exists w a, op = Some (set_cw p w a) /\ J (set_cw p w a) t (cops ++ [o]) sops D.
Proof.
  intros H NN OK O E. pose proof H as [a b c d f g NW0]. rewrite OK in c. unfold c_write in E.
  assert (W := CW_op (cwr p) (sends t) (sends t) cops o c). specialize (W ltac:(destruct O as [->|[-> _]]; exact Logic.I) ltac:(destruct O as [->|[-> ?]]; cbn; auto)).
  destruct (hw_op rc (cwr p) o) as [w|w|]; [| |contradiction]; subst op; eexists; eexists; (split; [reflexivity|]); constructor; cbn [cli srv cwr cok ph cread swr sread sreq set_cw]; try assumption; first [now apply SR_more|contradiction].
Qed.

(** the server's silent steps *)
Lemma J_silent p t cops sops D e o op : J p t cops sops D -> silent (srv p) e -> proper_comp e -> s_step p e = (o, op) ->
  match op with Some p' => J p' (t ++ o) cops sops D | None => o = [SO (ServerModel.OPanic ServerModel.CloseOfClosed)] end.
Proof.
  intros H SI PC E. pose proof H as [a b c d f g NW0]. unfold s_step in E. destruct (ServerModel.step (srv p) e) as [o1 [s'|]] eqn:S; injection E as <- <-.
  - destruct (server_t t o1) as (C1 & C2 & C3). pose proof (ServerProofs.SI_reach _ _ _ b) as I. destruct (silent_step _ _ _ _ I SI PC S) as (W & R & P & N & ID & AL & CO & NO).
    assert (SN : sends (t ++ map SO o1) = sends t) by (unfold sends; now rewrite C1).
    constructor; cbn [cli srv cwr cok ph cread swr sread sreq set_s]; rewrite ?C1, ?C2, ?C3, ?SN; try assumption; [econstructor; eassumption| |].
    + now apply (SR_silent (srv p)).
    + now apply (SW_silent (srv p)).
  - destruct (ServerEnd.crash_only _ _ _ (ServerProofs.SI_reach _ _ _ b) S) as (-> & _). reflexivity.
Qed.
(** the response that the write loop holds *)
Lemma cur_facts p t cops sops D x : J p t cops sops D -> ServerModel.wp (srv p) = ServerModel.WWrite x ->
  D = ServerSpec.writes (server t) /\ (exists l, ServerSpec.answers (server t) = filter ServerSpec.for_request (D ++ [x]) ++ l) /\ (ServerSpec.for_request x = false -> x = ServerSpec.pong_of PING_ID /\ rc <> RC4).
Proof.
  intros H W. pose proof H as [a b c d f g NW0]. destruct (ServerTrace.QI_reach _ _ _ b) as [lost Q]. assert (lost = []) as ->.
  { destruct lost; [reflexivity|]. destruct (ServerTrace.qi_lost _ _ _ Q) as [X|X]; [discriminate|congruence|congruence]. }
  assert (DW : D = ServerSpec.writes (server t)). { destruct (sw_x _ _ _ _ _ _ f) as [X|[X _]]; [exact X|]. unfold alive in X. now rewrite W in X. }
  split; [exact DW|]. destruct Q as [_ qa qp qg _]. unfold ServerTrace.queue, ServerTrace.cur in *. rewrite W in *. cbn [app] in *. rewrite <- DW in *. split.
  - exists (filter ServerSpec.for_request (ServerModel.out (srv p)) ++ ServerTrace.blkl (srv p)). rewrite qa. change (D ++ x :: ServerModel.out (srv p)) with (D ++ [x] ++ ServerModel.out (srv p)). now rewrite !filter_app, !app_assoc.
  - intro F. assert (X : In x (map ServerSpec.pong_of (ServerSpec.pings (server t)))).
    { rewrite qg, qp. apply in_or_app. left. apply filter_In. split; [apply in_or_app; right; now left|]. unfold ServerTrace.for_ping. now rewrite F. }
    apply in_map_iff in X. destruct X as (id & <- & X). pose proof (sr_pg _ _ _ _ _ _ d) as PG. rewrite Forall_forall in PG. rewrite (PG id X). split; [reflexivity|]. intro R4. now rewrite (sr_4 _ _ _ _ _ _ d R4) in X.
Qed.
Lemma frame_call p t cops sops D x : J p t cops sops D -> HolderSpec.timely (client t) -> ServerModel.wp (srv p) = ServerModel.WWrite x -> response_call rc (OpRes (frame_of (sreq p) x)).
Proof.
  intros H T W. destruct (cur_facts _ _ _ _ _ _ H W) as (DW & [l AN] & PO). cbn [response_call]. unfold response_ok. destruct (ServerModel.res_req x) as [k|] eqn:RR.
  - destruct (ans_facts m (srv p) (server t) x (j_s _ _ _ _ _ H)) as (k' & code & b & Y & Q1 & Q2).
    { rewrite AN, filter_app. apply in_or_app. left. apply in_or_app. right. cbn. unfold ServerSpec.for_request. rewrite RR. now left. }
    rewrite Y in RR. cbn in RR. injection RR as ->. subst x. unfold frame_of. cbn [ServerModel.res_req ServerModel.res_id ServerModel.res_code ServerModel.res_body p_msg p_id p_code p_body].
    pose proof (sw_comps _ _ _ _ _ _ (j_sw _ _ _ _ _ H)) as F. rewrite Forall_forall in F. destruct (F _ Q1) as [F1 F2]. cbn [fst snd] in F1, F2.
    destruct (SR_nth _ _ _ _ _ k H Q2) as (id & r & N & SQ). rewrite (sr_id _ _ _ _ _ _ (j_sr _ _ _ _ _ H) k Q2), SQ.
    destruct (HolderProps.reach_polite _ _ (j_c _ _ _ _ _ H) (PairLink.k_pol _ _ _ (cr_k _ _ _ _ _ (j_cr _ _ _ _ _ H))) T) as (_ & CI & _).
    destruct (sentq_call (id, r) _ _ k CI N) as (A1 & A2 & _). split; [exact A1|]. split; [exact A2|]. split; [now apply wire_code_u32|].
    unfold code_bytes. cbn [sentq q_msg snd] in *. destruct (HR r) as (_ & NP & _). apply Z.eqb_neq in NP. rewrite NP. unfold u32_ok, zlen in *. destruct rc; cbn [length le32 Z.of_nat] in *; try lia.
  - destruct PO as [-> _]; [unfold ServerSpec.for_request; now rewrite RR|]. unfold frame_of, ServerSpec.pong_of, code_bytes, u32_ok, PING, PING_ID, zlen. cbn. lia.
Qed.
Lemma J_swrite p t cops sops D o op : J p t cops sops D -> HolderSpec.timely (client t) ->
  (match ServerModel.wp (srv p) with ServerModel.WWrite x => s_write rc p (OpRes (frame_of (sreq p) x)) | ServerModel.WFlush | ServerModel.WEnd => s_write rc p OpFlush | _ => ([], None) end) = (o, op) ->
  match ServerModel.wp (srv p) with ServerModel.WWrite _ | ServerModel.WFlush | ServerModel.WEnd => True | _ => False end ->
  exists p' sops' D', op = Some p' /\ J p' (t ++ o) cops sops' D'.
Proof.
  intros H T E G. pose proof H as [a b c d f g NW0].
  assert (AL : alive (srv p) = true) by (unfold alive; destruct (ServerModel.wp (srv p)); try contradiction; reflexivity). pose proof f as [w1 w2 w3 w4 w5 w6 w7]. rewrite AL in w1.
  assert (DW : D = ServerSpec.writes (server t)) by (destruct w4 as [X|[X _]]; [exact X|congruence]).
  assert (ST : forall e o1 s', ServerModel.step (srv p) e = (o1, Some s') -> match e with ServerModel.Writer | ServerModel.WriteFail => True | _ => False end ->
     ServerModel.nreq s' = ServerModel.nreq (srv p) /\ ServerModel.idOf s' = ServerModel.idOf (srv p) /\ ServerSpec.pings o1 = [] /\ ServerSpec.comps o1 = [] /\ ServerSpec.answers o1 = [] /\ (forall r id, ~ In (ServerModel.OReq r id) o1)).
  { intros e o1 s' S X. destruct e; try contradiction; cbn [ServerModel.step] in S; unfold ServerModel.step_writer in S; destruct (ServerModel.wp (srv p)); try contradiction; injection S as <- <-; (repeat split; try reflexivity); intros r id; cbn; intuition discriminate. }
  assert (FIN : forall w e o1 s' sops' D', ServerModel.step (srv p) e = (o1, Some s') -> match e with ServerModel.Writer | ServerModel.WriteFail => True | _ => False end ->
     SW s' w (sreq p) (server t ++ o1) sops' D' -> CR (cli p) (client t) (ph p) (cread p) D' -> J (set_s (set_sw p w) s') (t ++ map SO o1) cops sops' D').
  { intros w e o1 s' sops' D' S X SW' CR'. destruct (server_t t o1) as (C1 & C2 & C3). destruct (ST _ _ _ S X) as (N & ID & P & _ & _ & NO).
    assert (SN : sends (t ++ map SO o1) = sends t) by (unfold sends; now rewrite C1).
    constructor; cbn [cli srv cwr cok ph cread swr sread sreq set_s set_sw]; rewrite ?C1, ?C2, ?C3, ?SN; try assumption; [econstructor; eassumption|]. now apply (SR_silent (srv p)). }
  assert (FL : ServerModel.wp (srv p) = ServerModel.WFlush \/ ServerModel.wp (srv p) = ServerModel.WEnd -> s_write rc p OpFlush = (o, op) -> exists p' sops' D', op = Some p' /\ J p' (t ++ o) cops sops' D').
  { clear E. intros WP E. unfold s_write in E. pose proof (wrote_step rc sops (swr p) OpFlush w1) as WS. destruct (hw_op rc (swr p) OpFlush) as [w|w|]; [| |contradiction].
    - unfold s_step in E. cbn [srv set_sw] in E. assert (S : exists s', ServerModel.step (srv p) ServerModel.Writer = ([], Some s')) by (cbn [ServerModel.step]; unfold ServerModel.step_writer; destruct WP as [-> | ->]; eexists; reflexivity).
      destruct S as [s' S]. rewrite S in E. injection E as <- <-. eexists. exists (sops ++ [OpFlush]), D. split; [reflexivity|]. apply (FIN w ServerModel.Writer []); [exact S|exact Logic.I| |exact g]. rewrite app_nil_r.
      constructor; try assumption; [destruct (alive s'); [exact WS|now apply wrote_dead in WS]|now apply Forall_snoc|rewrite responses_of_app; cbn; rewrite app_nil_r; exact w3|now left].
    - unfold s_step in E. cbn [srv set_sw] in E. assert (S : ServerModel.step (srv p) ServerModel.WriteFail = ([ServerModel.OWriteErr], Some (ServerModel.w_wp (srv p) ServerModel.WNote))) by (cbn [ServerModel.step]; destruct WP as [-> | ->]; reflexivity).
      rewrite S in E. injection E as <- <-. eexists. exists (sops ++ [OpFlush]), D. split; [reflexivity|]. apply (FIN w ServerModel.WriteFail [ServerModel.OWriteErr]); [exact S|exact Logic.I| |exact g].
      constructor; try assumption; [now apply Forall_snoc|rewrite responses_of_app; cbn; rewrite app_nil_r; exact w3|left; rewrite ServerTrace.writes_app; cbn; now rewrite app_nil_r|rewrite ServerTrace.answers_app; cbn; rewrite app_nil_r; exact w5|rewrite ServerTrace.comps_app; cbn; rewrite app_nil_r; exact w7]. }
  destruct (ServerModel.wp (srv p)) as [| | | |x| | | |] eqn:WP; try contradiction; [now apply FL; [left|]| |now apply FL; [right|]]. clear FL.
  pose proof (frame_call _ _ _ _ _ _ H T WP) as FC. destruct (cur_facts _ _ _ _ _ _ H WP) as (_ & AN & PO). unfold s_write in E. pose proof (wrote_step rc sops (swr p) (OpRes (frame_of (sreq p) x)) w1) as WS.
  destruct (hw_op rc (swr p) (OpRes (frame_of (sreq p) x))) as [w|w|]; [| |contradiction]; unfold s_step in E; cbn [srv set_sw] in E.
  - assert (S : ServerModel.step (srv p) ServerModel.Writer = ([ServerModel.OWrite x], Some (ServerModel.w_wp (srv p) ServerModel.WSel))) by (cbn [ServerModel.step]; unfold ServerModel.step_writer; now rewrite WP).
    rewrite S in E. injection E as <- <-. eexists. exists (sops ++ [OpRes (frame_of (sreq p) x)]), (D ++ [x]). split; [reflexivity|]. apply (FIN w ServerModel.Writer [ServerModel.OWrite x]); [exact S|exact Logic.I| |now apply CR_more].
    constructor; [exact WS|now apply Forall_snoc|rewrite responses_of_app, map_app, w3; reflexivity|left; rewrite ServerTrace.writes_app, DW; reflexivity|rewrite ServerTrace.answers_app; cbn; rewrite app_nil_r; exact AN|now apply Forall_snoc|rewrite ServerTrace.comps_app; cbn; rewrite app_nil_r; exact w7].
  - assert (S : ServerModel.step (srv p) ServerModel.WriteFail = ([ServerModel.OWriteErr], Some (ServerModel.w_wp (srv p) ServerModel.WNote))) by (cbn [ServerModel.step]; now rewrite WP).
    rewrite S in E. injection E as <- <-. eexists. exists (sops ++ [OpRes (frame_of (sreq p) x)]), (D ++ [x]). split; [reflexivity|]. apply (FIN w ServerModel.WriteFail [ServerModel.OWriteErr]); [exact S|exact Logic.I| |now apply CR_more].
    constructor; [exact WS|now apply Forall_snoc|rewrite responses_of_app, map_app, w3; reflexivity|right; split; [reflexivity|]; exists x; rewrite ServerTrace.writes_app; cbn; now rewrite app_nil_r, DW|rewrite ServerTrace.answers_app; cbn; rewrite app_nil_r; exact AN|now apply Forall_snoc|rewrite ServerTrace.comps_app; cbn; rewrite app_nil_r; exact w7].
Qed.

(** what the client reads *)
Lemma D_msg p t cops sops D y : J p t cops sops D -> In y D -> rc = RC4 -> p_msg (frame_of (sreq p) y) <> PING.
Proof.
  intros H I R4. unfold frame_of. cbn [p_msg]. destruct (ServerModel.res_req y) as [k|] eqn:RR.
  - destruct (D_facts _ _ _ _ _ _ _ H I RR) as (code & b & _ & _ & L & _). destruct (SR_nth _ _ _ _ _ k H L) as (id & r & _ & ->). exact (proj1 (proj2 (HR r))).
  - pose proof (sw_pong _ _ _ _ _ _ (j_sw _ _ _ _ _ H)) as P. rewrite Forall_forall in P. destruct (P y I) as [_ N]; [unfold ServerSpec.for_request; now rewrite RR|]. now elim N.
Qed.
Lemma next_response p t cops sops D cuts fuel x : J p t cops sops D -> ph p = Running -> nth_error (client_reads dial rc fuel (r_init (pieces cuts (w_out (swr p))))) (cread p) = Some x ->
  exists y, nth_error D (cread p) = Some y /\ x = seen rc (frame_of (sreq p) y).
Proof.
  intros H PH E. pose proof (j_sw _ _ _ _ _ H) as [w1 w2 w3 w4 w5 w6 w7].
  assert (N4 : rc = RC4 -> Forall (fun p => p_msg p <> PING) (responses_of sops)).
  { intro R4. rewrite w3. apply Forall_forall. intros q Q. apply in_map_iff in Q. destruct Q as (y & <- & Q). now apply (D_msg p t cops sops D). }
  assert (N0 : dial = true -> exists q, nth_error (responses_of sops) 0 = Some q /\ seen rc q = mkRes PING PING_ID RC_OK []).
  { intro DI. pose proof (cr_ph _ _ _ _ _ (j_cr _ _ _ _ _ H)) as P. rewrite PH in P. destruct (P DI) as (y & D' & -> & FR & _). rewrite w3. exists (frame_of (sreq p) y). split; [reflexivity|].
    inversion_clear w6 as [|? ? A B]. destruct (A FR) as [-> _]. reflexivity. }
  destruct (nth_response _ _ _ _ _ _ _ _ _ RC_ok N4 w1 w2 N0 E) as (q & Q & ->).
  rewrite w3, nth_error_map in Q. destruct (nth_error D (cread p)) as [y|]; [|discriminate]. injection Q as <-. now exists y.
Qed.
Lemma fresh p t cops sops D n y k : J p t cops sops D -> nth_error D n = Some y -> ServerModel.res_req y = Some k -> ~ In k (PairLink.nums (flat_map to_ans (firstn n D))).
Proof.
  intros H N E I. unfold PairLink.nums in I. apply in_map_iff in I. destruct I as ([[k' c'] b'] & <- & I). apply in_flat_map in I. destruct I as (y' & I & J'). unfold to_ans in J'.
  destruct (ServerModel.res_req y') as [k2|] eqn:E2; [|easy]. destruct J' as [J'|[]]. injection J' as -> _ _. cbn [fst] in E.
  destruct (sw_ans _ _ _ _ _ _ (j_sw _ _ _ _ _ H)) as [l AN]. pose proof (ans_nodup m _ _ (j_s _ _ _ _ _ H)) as ND. rewrite AN in ND.
  rewrite <- (firstn_skipn n D) in ND. assert (SK : exists r, skipn n D = y :: r). { clear - N. revert D N. induction n as [|n IH]; intros [|z D] N; try discriminate; [injection N as ->; now exists D|]. cbn. now apply IH. }
  destruct SK as [r SK]. rewrite SK, filter_app, !map_app in ND. cbn [filter] in ND. unfold ServerSpec.for_request at 2 in ND. rewrite E in ND. cbn [map] in ND. rewrite <- app_assoc in ND. cbn [app] in ND.
  apply NoDup_remove_2 in ND. apply ND. apply in_or_app. left. rewrite E, <- E2. apply in_map. apply filter_In. split; [exact I|]. unfold ServerSpec.for_request. now rewrite E2.
Qed.
Lemma J_cread p t cops sops D cuts o op : J p t cops sops D -> step rc msg body dial p (CRead cuts) = (o, op) -> HolderSpec.timely (client (t ++ o)) ->
  exists p', op = Some p' /\ J p' (t ++ o) cops sops D.
Proof.
  intros H E T. pose proof H as [a b c d f g NW0]. cbn [step] in E. assert (SKIP : ok p = (o, op) -> exists p', op = Some p' /\ J p' (t ++ o) cops sops D).
  { intro X. injection X as <- <-. exists p. rewrite app_nil_r. now split. }
  destruct (ph p) eqn:PH; try (now apply SKIP). destruct (HolderModel.reader (cli p)) eqn:RD; [now apply SKIP|]. destruct (HolderModel.open (cli p)) eqn:OP; [|now apply SKIP].
  destruct (nth_error _ _) as [x|] eqn:NX; [|now apply SKIP]. clear SKIP. destruct (next_response _ _ _ _ _ _ _ _ H PH NX) as (y & NY & ->). clear NX. cbv zeta in E.
  pose proof (nth_error_In _ _ NY) as IY. pose proof (firstn_nth _ _ _ NY) as FN. assert (LN : (S (cread p) <= length D)%nat) by (apply nth_error_Some; congruence).
  destruct g as [g1 g2 g3 g4]. destruct (ServerModel.res_req y) as [k|] eqn:RR.
  - destruct (D_facts _ _ _ _ _ _ _ H IY RR) as (code & bd & Y & CM & L & _). destruct (SR_nth _ _ _ _ _ k H L) as (id & r & NS & SQ).
    assert (PM : p_msg (seen rc (frame_of (sreq p) y)) = msg r) by (unfold seen, frame_of; cbn [p_msg]; rewrite RR, SQ; reflexivity).
    destruct (HR r) as (_ & NP & _). apply Z.eqb_neq in NP. rewrite PM, NP, andb_false_r in E. unfold c_step in E. cbn [cli set_cread] in E.
    assert (PI : p_id (seen rc (frame_of (sreq p) y)) = id) by (rewrite Y; cbn [seen frame_of p_id ServerModel.res_id]; rewrite (sr_id _ _ _ _ _ _ d k L), SQ; reflexivity).
    assert (PC : p_code (seen rc (frame_of (sreq p) y)) = match rc with RC0 => RC_OK | _ => ServerModel.res_code y end) by (unfold seen; cbn [p_code]; change (p_msg (frame_of (sreq p) y)) with (p_msg (seen rc (frame_of (sreq p) y))); rewrite PM, NP; reflexivity).
    assert (PB : p_body (seen rc (frame_of (sreq p) y)) = ServerModel.res_body y) by reflexivity.
    rewrite PI, PC, PB in E. set (cd := match rc with RC0 => RC_OK | _ => ServerModel.res_code y end) in *.
    destruct (HolderModel.step (cli p) (HolderModel.Resp id cd (ServerModel.res_body y))) as [o1 oc] eqn:S.
    assert (O : o = map CO o1) by (destruct oc; now injection E as <- _). subst o. destruct (client_t t o1) as (C1 & C2 & C3). rewrite C1 in T.
    destruct (PairLink.K_got _ _ _ _ _ _ _ _ _ _ a g2 (HolderProofs.timely_pre _ _ T) RD OP NS (fresh _ _ _ _ _ _ _ _ H NY RR) S) as (-> & c' & -> & K'). injection E as E. cbn in E. subst op.
    eexists. split; [reflexivity|]. assert (TA : flat_map to_ans (firstn (Datatypes.S (cread p)) D) = flat_map to_ans (firstn (cread p) D) ++ [(k, cd, ServerModel.res_body y)]).
    { rewrite FN, flat_map_app. f_equal. cbn. unfold to_ans. now rewrite RR. }
    assert (SN : sends (t ++ map CO [HolderModel.OGot id cd (ServerModel.res_body y)]) = sends t) by (unfold sends; rewrite C1, HolderProofs.wires_app; cbn; now rewrite app_nil_r).
    constructor; cbn [cli srv cwr cok ph cread swr sread sreq set_c set_cread]; rewrite ?C1, ?C2, ?C3, ?SN; try assumption; [econstructor; eassumption| |congruence].
    constructor; [exact LN|rewrite TA; exact K'|rewrite TA, hgots_app, !app_length, g3; reflexivity|]. rewrite PH. intro DI. destruct (g4 DI) as (z & D' & -> & Z1 & Z2). exists z, D'. repeat split; [exact Z1|lia].
  - assert (FR : ServerSpec.for_request y = false) by (unfold ServerSpec.for_request; now rewrite RR). pose proof (sw_pong _ _ _ _ _ _ f) as P. rewrite Forall_forall in P. destruct (P y IY FR) as [-> _].
    cbn [seen frame_of ServerSpec.pong_of p_id p_msg ServerModel.res_id ServerModel.res_req] in E. rewrite !Z.eqb_refl in E. cbn [andb] in E. injection E as <- <-. eexists. split; [reflexivity|]. rewrite app_nil_r.
    constructor; cbn [cli srv cwr cok ph cread swr sread sreq set_cread]; try assumption; [|congruence].
    assert (TA : flat_map to_ans (firstn (S (cread p)) D) = flat_map to_ans (firstn (cread p) D)) by (rewrite FN, flat_map_app; cbn; now rewrite app_nil_r).
    constructor; [exact LN|rewrite TA; exact g2|rewrite TA; exact g3|]. rewrite PH. intro DI. destruct (g4 DI) as (z & D' & -> & Z1 & Z2). exists z, D'. repeat split; [exact Z1|lia].
Qed.

(** an id comes again only after the request that carried it was answered *)
Lemma id_again p t cops sops D id r : J p t cops sops D -> HolderSpec.timely (client t) -> nth_error (sends t) (ServerModel.nreq (srv p)) = Some (id, r) ->
  forall r', In (r', id) (ServerSpec.reqs (server t)) -> ServerSpec.answered (server t) r'.
Proof.
  intros H T N r' I. pose proof (ServerTrace.RI_reach _ _ _ (j_s _ _ _ _ _ H)) as RI. apply (ServerTrace.ri_req _ _ _ RI) in I. destruct I as [L ID].
  destruct (SR_nth _ _ _ _ _ r' H L) as (id1 & r1 & N1 & SQ). rewrite (sr_id _ _ _ _ _ _ (j_sr _ _ _ _ _ H) r' L), SQ in ID. cbn [sentq q_id fst] in ID. subst id1.
  pose proof (cr_k _ _ _ _ _ (j_cr _ _ _ _ _ H)) as K. destruct (HolderProps.reach_polite _ _ (j_c _ _ _ _ _ H) (PairLink.k_pol _ _ _ K) T) as (_ & CI & _).
  pose proof (HolderProofs.ci_ids _ _ CI _ _ N) as E0. pose proof (HolderProofs.ci_ids _ _ CI _ _ N1) as E1. cbn [fst] in E0, E1.
  destruct (PairLink.nth_id_eq r' (ServerModel.nreq (srv p))) as [X|[X|X]]; [congruence|lia| |lia].
  assert (LW : (ServerModel.nreq (srv p) < length (HolderSpec.wires (client t)))%nat) by (apply nth_error_Some; unfold sends in N; congruence).
  destruct (in_dec Nat.eq_dec r' (PairLink.nums (flat_map to_ans (firstn (cread p) D)))) as [Y|Y].
  - unfold PairLink.nums in Y. apply in_map_iff in Y. destruct Y as ([[k' c'] b'] & <- & Y). apply in_flat_map in Y. destruct Y as (y & I & J'). unfold to_ans in J'.
    destruct (ServerModel.res_req y) as [k2|] eqn:E2; [|easy]. destruct J' as [J'|[]]. injection J' as -> _ _. cbn [fst]. exists y. split; [|exact E2].
    destruct (sw_ans _ _ _ _ _ _ (j_sw _ _ _ _ _ H)) as [l ->]. apply in_or_app. left. apply filter_In. split; [|unfold ServerSpec.for_request; now rewrite E2]. rewrite <- (firstn_skipn (cread p) D). apply in_or_app. now left.
  - apply (PairLink.k_un _ _ _ K r') in Y; [|lia]. apply in_map_iff in Y. destruct Y as (w & W & Y). pose proof (HolderPolite.un_timely _ T w Y) as TX. unfold HolderPolite.X in TX. rewrite HolderProofs.nsent_wires in TX. lia.
Qed.
Lemma distinct_snoc T r id : ServerSpec.distinct_ids T -> (forall r', In (r', id) (ServerSpec.reqs T) -> ServerSpec.answered T r') -> ServerSpec.distinct_ids (T ++ [ServerModel.OReq r id]).
Proof.
  intros H N p r0 i q E. destruct q as [|y q _] using rev_ind.
  - apply app_inj_tail in E. destruct E as [-> E]. injection E as <- <-. exact N.
  - rewrite app_comm_cons, app_assoc in E. apply app_inj_tail in E. destruct E as [-> _]. now apply (H p r0 i q).
Qed.
Lemma J_sread p t cops sops D cuts o op : J p t cops sops D -> HolderSpec.timely (client t) -> step rc msg body dial p (SRead cuts) = (o, op) ->
  exists p', op = Some p' /\ J p' (t ++ o) cops sops D.
Proof.
  intros H T E. pose proof H as [a b c d f g NW0]. cbn [step] in E. assert (SKIP : ok p = (o, op) -> exists p', op = Some p' /\ J p' (t ++ o) cops sops D).
  { intro X. injection X as <- <-. exists p. rewrite app_nil_r. now split. }
  destruct (ServerModel.rp (srv p)) eqn:RP; try (now apply SKIP).
  destruct (nth_error _ _) as [q|] eqn:NX; [|now apply SKIP]. clear SKIP. cbv zeta in E.
  apply (nth_request rc cops _ (cok p)) in NX; [|apply c|apply c].
  pose proof (firstn_nth _ _ _ NX) as FN. assert (LN : (S (sread p) <= length (requests_of cops))%nat) by (apply nth_error_Some; congruence). pose proof (nth_error_In _ _ NX) as IQ.
  destruct d as [d1 d2 d3 d4 d5 d6 d7]. destruct (q_msg q =? PING) eqn:PG.
  - apply Z.eqb_eq in PG. pose proof (cw_p _ _ _ _ c) as P. rewrite Forall_forall in P. specialize (P q IQ PG).
    assert (R4 : rc <> RC4). { intro R4. pose proof (cw_4 _ _ _ _ c R4) as Q. rewrite Forall_forall in Q. now elim (Q q IQ). }
    unfold s_step in E. cbn [srv set_sread] in E. destruct (ServerModel.step (srv p) (ServerModel.NetPing (q_id q))) as [o1 oc] eqn:S. pose proof S as S2. cbn [ServerModel.step] in S2. rewrite RP in S2. injection S2 as <- <-.
    injection E as <- <-. eexists. split; [reflexivity|]. destruct (server_t t [ServerModel.OPing (q_id q)]) as (C1 & C2 & C3).
    assert (SN : sends (t ++ map SO [ServerModel.OPing (q_id q)]) = sends t) by (unfold sends; now rewrite C1). cbn [map] in C1, C2, C3, SN.
    constructor; cbn [cli srv cwr cok ph cread swr sread sreq set_s set_sread]; rewrite ?C1, ?C2, ?C3, ?SN; try assumption; [econstructor; eassumption| |].
    + constructor; cbn [ServerModel.nreq ServerModel.idOf ServerModel.w_rp]; try assumption.
      * rewrite FN, filter_app, <- d2. cbn [filter]. unfold notping at 2. rewrite PG, Z.eqb_refl. cbn. apply app_nil_r.
      * rewrite ServerTrace.pings_app. now apply Forall_snoc.
      * intro R. now elim R4.
      * apply distinct_quiet; [exact d7|]. intros r id [X|[]]. discriminate.
    + destruct f as [w1 w2 w3 w4 w5 w6 w7]. constructor; try assumption.
      * rewrite ServerTrace.writes_app. cbn. rewrite app_nil_r. exact w4.
      * rewrite ServerTrace.answers_app. cbn. rewrite app_nil_r. exact w5.
      * rewrite ServerTrace.comps_app. cbn. rewrite app_nil_r. exact w7.
  - assert (NP : notping q = true) by (unfold notping; now rewrite PG). cbn [srv set_sread] in E. set (n := ServerModel.nreq (srv p)) in *. set (f' := fun i => if Nat.eqb i n then q else sreq (set_sread p (S (sread p))) i) in *.
    unfold s_step in E. cbn [srv set_sread set_sreq] in E. destruct (ServerModel.step (srv p) (ServerModel.NetReq (q_id q))) as [o1 oc] eqn:S. pose proof S as S2. cbn [ServerModel.step] in S2. rewrite RP in S2. injection S2 as <- <-.
    injection E as <- <-. eexists. split; [reflexivity|]. match goal with |- J _ ?x _ _ _ => set (to := x) end.
    assert (C1 : client to = client t) by (unfold to; rewrite client_app; cbn; apply app_nil_r). assert (C2 : server to = server t ++ [ServerModel.OReq n (q_id q)]) by (unfold to; now rewrite server_app).
    assert (C3 : reads to = reads t ++ [(n, q)]) by (unfold to; now rewrite reads_app). assert (SN : sends to = sends t) by (unfold sends; now rewrite C1).
    assert (FS : forall k, (k < n)%nat -> f' k = sreq p k) by (intros k L; unfold f'; destruct (Nat.eqb_spec k n); [lia|reflexivity]). assert (FF : f' n = q) by (unfold f'; now rewrite Nat.eqb_refl).
    assert (NS : exists r, nth_error (sends t) n = Some (q_id q, r)).
    { pose proof (cw_f _ _ _ _ c) as X. rewrite <- (firstn_skipn (Datatypes.S (sread p)) (requests_of cops)), filter_app, FN, filter_app, d2 in X. cbn [filter] in X. rewrite NP in X.
      assert (Y : nth_error (map (sentq msg body) (sends t)) n = Some q). { rewrite <- X, <- app_assoc. rewrite nth_error_app2; rewrite map_length, seq_length; [|reflexivity]. now rewrite Nat.sub_diag. }
      rewrite nth_error_map in Y. destruct (nth_error (sends t) n) as [[i r]|]; [|discriminate]. injection Y as <-. now exists r. }
    constructor; cbn [cli srv cwr cok ph cread swr sread sreq set_s set_sread set_sreq]; rewrite ?C1, ?C2, ?C3, ?SN; try assumption; [econstructor; eassumption| |].
    + constructor; cbn [ServerModel.nreq ServerModel.idOf ServerModel.w_rp ServerModel.w_new]; fold n; try assumption.
      * rewrite FN, filter_app, d2, seq_S, map_app. cbn [filter map Nat.add]. rewrite NP, FF. f_equal. apply map_ext_in. intros k K. apply in_seq in K. symmetry. apply FS. lia.
      * rewrite d3, seq_S, map_app. cbn [map Nat.add]. rewrite FF. f_equal. apply map_ext_in. intros k K. apply in_seq in K. rewrite FS by lia. reflexivity.
      * intros k K. rewrite ServerTrace.updn_get. destruct (Nat.eqb_spec k n) as [->|X]; [now rewrite FF|]. rewrite FS by lia. apply d4. lia.
      * rewrite ServerTrace.pings_app. cbn. now rewrite app_nil_r.
      * rewrite ServerTrace.pings_app. cbn. now rewrite app_nil_r.
      * apply distinct_snoc; [exact d7|]. destruct NS as [r NS]. now apply (id_again p t cops sops D (q_id q) r).
    + destruct f as [w1 w2 w3 w4 w5 w6 w7]. constructor; try assumption.
      * rewrite w3. apply map_ext_in. intros y Y. unfold frame_of. f_equal. destruct (ServerModel.res_req y) as [k|] eqn:RR; [|reflexivity]. destruct (D_facts _ _ _ _ _ _ _ H Y RR) as (code & bd & _ & _ & L & _). now rewrite FS.
      * rewrite ServerTrace.writes_app. cbn. rewrite app_nil_r. exact w4.
      * rewrite ServerTrace.answers_app. cbn. rewrite app_nil_r. exact w5.
      * rewrite ServerTrace.comps_app. cbn. rewrite app_nil_r. exact w7.
Qed.
Lemma J_phase p t cops sops D f n : J p t cops sops D -> f <> New -> CR (cli p) (client t) f n D -> J (set_cread (set_ph p f) n) t cops sops D.
Proof. intros [a b c d e g h] NN X. constructor; try assumption. intro Q. now elim NN. Qed.
Lemma J_hello p t cops sops D cuts r u : J p t cops sops D -> ph p = Greeted -> hr_ping (r_init (pieces cuts (w_out (swr p)))) = ROk r u -> J (set_cread (set_ph p Running) 1) t cops sops D.
Proof.
  intros H PH E. pose proof H as [a b c d f g NW0]. apply J_phase; [exact H|discriminate|]. destruct g as [g1 g2 g3 g4]. rewrite PH in g4. destruct g4 as (DI & CT & CN).
  pose proof (hello_written rc sops _ _ cuts r u (sw_w _ _ _ _ _ _ f) E (sw_c _ _ _ _ _ _ f)) as NE. rewrite (sw_f _ _ _ _ _ _ f) in NE.
  assert (X : exists x D', D = x :: D') by (destruct D as [|x D']; [now elim NE|eauto]). destruct X as (x & D' & DE).
  assert (FR : ServerModel.res_req x = None).
  { destruct (ServerModel.res_req x) as [k|] eqn:RR; [|reflexivity]. destruct (D_facts _ _ _ _ _ x k H) as (code & bd & _ & _ & L & _); [rewrite DE; now left|exact RR|].
    destruct (SR_nth _ _ _ _ _ k H L) as (id & r0 & N & _). unfold sends in N. rewrite CT in N. destruct k; discriminate. }
  rewrite CN in *. subst D. constructor; cbn [firstn flat_map] in *; unfold to_ans in *; rewrite ?FR; try assumption; cbn; [lia|].
  intros _. exists x, D'. repeat split; [unfold ServerSpec.for_request; now rewrite FR|lia].
Qed.
Definition clean (e : ev) : Prop := match e with Server x => proper_comp x | CPing => rc = RC0 | _ => True end.
Lemma J_step p t cops sops D e o op : J p t cops sops D -> clean e -> step rc msg body dial p e = (o, op) -> HolderSpec.timely (client (t ++ o)) ->
  match op with Some p' => exists cops' sops' D', J p' (t ++ o) cops' sops' D' | None => o = [SO (ServerModel.OPanic ServerModel.CloseOfClosed)] end.
Proof.
  intros H CL E T. assert (T0 : HolderSpec.timely (client t)) by (rewrite client_app in T; now apply HolderProofs.timely_pre in T).
  assert (SKIP : ok p = (o, op) -> match op with Some p' => exists cops' sops' D', J p' (t ++ o) cops' sops' D' | None => o = [SO (ServerModel.OPanic ServerModel.CloseOfClosed)] end).
  { intro X. injection X as <- <-. exists cops, sops, D. now rewrite app_nil_r. }
  destruct e as [|cuts|e| | |cuts|e|cuts].
  - (* Dial *) cbn [step] in E. destruct (ph p) eqn:PH; try (now apply SKIP). pose proof (cr_ph _ _ _ _ _ (j_cr _ _ _ _ _ H)) as P. rewrite PH in P. destruct P as (DI & CT & CN).
    assert (R0 : rc = RC0) by (destruct RC as [R|[_ R]]; [exact R|congruence]). pose proof (j_new _ _ _ _ _ H PH) as OK.
    assert (H0 : J (set_ph p Greeted) t cops sops D).
    { pose proof (J_phase _ _ _ _ _ Greeted (cread p) H) as X. apply X; [discriminate|]. pose proof (j_cr _ _ _ _ _ H) as [g1 g2 g3 g4]. constructor; try assumption. now repeat split. }
    destruct (J_cwrite _ t cops sops D OpPing _ H0 ltac:(discriminate) OK (or_intror (conj eq_refl R0)) eq_refl) as (w & a & Q & H1).
    assert (Q' : c_write rc p OpPing = Some (set_cw p w a)) by (unfold c_write in *; cbn [cwr set_ph] in Q; destruct (hw_op rc (cwr p) OpPing); try discriminate; injection Q as <- <-; reflexivity).
    rewrite Q' in E. cbn [cok set_cw] in E. destruct a.
    + destruct (J_cwrite _ t _ sops D OpFlush _ H1 ltac:(discriminate) eq_refl (or_introl eq_refl) eq_refl) as (w2 & a2 & Q2 & H2).
      assert (Q2' : c_write rc (set_cw p w true) OpFlush = Some (set_cw p w2 a2)) by (unfold c_write in *; cbn [cwr set_ph set_cw] in *; destruct (hw_op rc w OpFlush); try discriminate; injection Q2 as <- <-; reflexivity).
      rewrite Q2' in E. injection E as <- <-. rewrite app_nil_r. eexists. eexists. eexists. exact H2.
    + injection E as <- <-. rewrite app_nil_r. eexists. eexists. eexists. exact H1.
  - (* Hello *) cbn [step] in E. destruct (ph p) eqn:PH; try (now apply SKIP). destruct (cok p); [|now apply SKIP]. destruct (hr_ping _) as [r u| |] eqn:HP; try (now apply SKIP). injection E as <- <-. rewrite app_nil_r.
    eexists. eexists. eexists. now apply (J_hello p t cops sops D cuts r u).
  - (* Client *) cbn [step] in E. destruct (ph p) eqn:PH; try (now apply SKIP).
    assert (GO : PairLink.is_resp e = false -> ((exists r, e = HolderModel.Send r) -> cok p = true) -> c_step rc msg body p e = (o, op) ->
      match op with Some p' => exists cops' sops' D', J p' (t ++ o) cops' sops' D' | None => o = [SO (ServerModel.OPanic ServerModel.CloseOfClosed)] end).
    { intros NR OK Q. destruct (J_client _ _ _ _ _ _ _ _ H PH NR OK Q T) as (p' & cops' & -> & H'). now exists cops', sops, D. }
    destruct e; try (now apply SKIP); try (apply GO; [reflexivity|intros [? X]; discriminate|exact E]).
    + destruct (cok p) eqn:OK; [|now apply SKIP]. apply GO; [reflexivity|now intros|exact E].
    + destruct (cok p) eqn:OK; [|now apply SKIP]. apply GO; [reflexivity|now intros|exact E].
  - (* CPing *) cbn [step] in E. destruct (ph p) eqn:PH; try (now apply SKIP). destruct (cok p && _) eqn:OK; [|now apply SKIP]. apply andb_true_iff in OK. destruct OK as [OK _].
    destruct (J_cwrite _ t cops sops D OpPing _ H ltac:(congruence) OK (or_intror (conj eq_refl CL)) eq_refl) as (w & a & Q & H1). rewrite Q in E. injection E as <- <-. rewrite app_nil_r. eexists. eexists. eexists. exact H1.
  - (* CFlush *) cbn [step] in E. destruct (ph p) eqn:PH; try (now apply SKIP). destruct (cok p) eqn:OK; [|now apply SKIP].
    destruct (J_cwrite _ t cops sops D OpFlush _ H ltac:(congruence) OK (or_introl eq_refl) eq_refl) as (w & a & Q & H1). rewrite Q in E. injection E as <- <-. rewrite app_nil_r. eexists. eexists. eexists. exact H1.
  - (* CRead *) destruct (J_cread _ _ _ _ _ _ _ _ H E T) as (p' & -> & H'). now exists cops, sops, D.
  - (* Server *) cbn [step] in E.
    assert (GO : silent (srv p) e -> s_step p e = (o, op) -> match op with Some p' => exists cops' sops' D', J p' (t ++ o) cops' sops' D' | None => o = [SO (ServerModel.OPanic ServerModel.CloseOfClosed)] end).
    { intros S Q. pose proof (J_silent _ _ _ _ _ _ _ _ H S CL Q) as X. destruct op; [|exact X]. now exists cops, sops, D. }
    destruct e; try (now apply SKIP); try (apply GO; [exact Logic.I|exact E]).
    assert (W : match ServerModel.wp (srv p) with ServerModel.WWrite _ | ServerModel.WFlush | ServerModel.WEnd => True | _ => False end -> match op with Some p' => exists cops' sops' D', J p' (t ++ o) cops' sops' D' | None => o = [SO (ServerModel.OPanic ServerModel.CloseOfClosed)] end).
    { intro W. destruct (J_swrite p t cops sops D o op H T0) as (p' & sops' & D' & -> & H'); [|exact W|now exists cops, sops', D']. destruct (ServerModel.wp (srv p)); try contradiction; exact E. }
    destruct (ServerModel.wp (srv p)) eqn:WP; try (now apply W); apply GO; try exact E; cbn [silent]; now rewrite WP.
  - (* SRead *) destruct (J_sread _ _ _ _ _ _ _ _ H T0 E) as (p' & -> & H'). now exists cops, sops, D.
Qed.
Lemma J_run es : forall p t cops sops D o op, J p t cops sops D -> Forall clean es -> run rc msg body dial p es = (o, op) -> HolderSpec.timely (client (t ++ o)) ->
  match op with Some p' => exists cops' sops' D', J p' (t ++ o) cops' sops' D' | None => exists o', o = o' ++ [SO (ServerModel.OPanic ServerModel.CloseOfClosed)] end /\
  exists p' t' cops' sops' D', J p' (t ++ t') cops' sops' D' /\ (op = Some p' /\ t' = o \/ op = None /\ o = t' ++ [SO (ServerModel.OPanic ServerModel.CloseOfClosed)]).
Proof.
  induction es as [|e es IH]; intros p t cops sops D o op H CL E T.
  - injection E as <- <-. split; [exists cops, sops, D; now rewrite app_nil_r|]. exists p, [], cops, sops, D. rewrite app_nil_r. split; [exact H|]. now left.
  - inversion_clear CL as [|? ? C1 C2]. cbn [run] in E. destruct (step rc msg body dial p e) as [o1 [p1|]] eqn:S.
    + destruct (run rc msg body dial p1 es) as [o2 op2] eqn:R. injection E as <- <-. rewrite app_assoc in T.
      assert (T1 : HolderSpec.timely (client (t ++ o1))) by (rewrite client_app in T; now apply HolderProofs.timely_pre in T).
      destruct (J_step _ _ _ _ _ _ _ _ H C1 S T1) as (cops1 & sops1 & D1 & H1). destruct (IH _ _ _ _ _ _ _ H1 C2 R T) as [A (p' & t' & c' & s' & D' & H' & Q)]. rewrite <- app_assoc in *. split.
      * destruct op2; [exact A|]. destruct A as [o' ->]. exists (o1 ++ o'). now rewrite app_assoc.
      * exists p', (o1 ++ t'), c', s', D'. split; [now rewrite app_assoc in *|]. destruct Q as [[-> ->]|[-> ->]]; [now left|right; split; [reflexivity|now rewrite app_assoc]].
    + injection E as <- <-. pose proof (J_step _ _ _ _ _ _ _ _ H C1 S T) as X. cbn in X. subst o1. split; [now exists []|]. exists p, [], cops, sops, D. rewrite app_nil_r. split; [exact H|]. now right.
Qed.
End Inv.
Arguments j_c {rc m msg body dial p t cops sops D} _.
Arguments j_s {rc m msg body dial p t cops sops D} _.
Arguments j_cw {rc m msg body dial p t cops sops D} _.
Arguments j_sr {rc m msg body dial p t cops sops D} _.
Arguments j_sw {rc m msg body dial p t cops sops D} _.
Arguments j_cr {rc m msg body dial p t cops sops D} _.
Arguments j_new {rc m msg body dial p t cops sops D} _.
Arguments cw_w {rc msg body w a ws cops} _.
Arguments cw_c {rc msg body w a ws cops} _.
Arguments cw_f {rc msg body w a ws cops} _.
Arguments cw_p {rc msg body w a ws cops} _.
Arguments cw_4 {rc msg body w a ws cops} _.
Arguments sr_n {rc s f n cops rds T} _.
Arguments sr_f {rc s f n cops rds T} _.
Arguments sr_r {rc s f n cops rds T} _.
Arguments sr_id {rc s f n cops rds T} _.
Arguments sr_pg {rc s f n cops rds T} _.
Arguments sr_4 {rc s f n cops rds T} _.
Arguments sr_d {rc s f n cops rds T} _.
Arguments sw_w {rc s w f T sops D} _.
Arguments sw_c {rc s w f T sops D} _.
Arguments sw_f {rc s w f T sops D} _.
Arguments sw_x {rc s w f T sops D} _.
Arguments sw_ans {rc s w f T sops D} _.
Arguments sw_pong {rc s w f T sops D} _.
Arguments sw_comps {rc s w f T sops D} _.
Arguments cr_n {rc dial c h f n D} _.
Arguments cr_k {rc dial c h f n D} _.
Arguments cr_g {rc dial c h f n D} _.
Arguments cr_ph {rc dial c h f n D} _.
