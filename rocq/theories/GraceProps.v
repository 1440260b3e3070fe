(** C145: stopping a server with open connections. *)
From Coq Require Import ZArith List Bool Arith Lia.
Import ListNotations.
From Verif Require ListenModel ListenSpec ListenProofs ServerModel ServerSpec ServerProofs ServerEnd ServerProps GraceEnd.
From Verif Require Import GraceModel GraceSpec GraceProofs GraceLast GraceLive.

(** When Running is closed, everything that was read on a connection, before or after, has been answered on the wire
    before: every ping, and every request with the code and body its handler gave it. This holds of each connection on
    which no write failed and whose client does not reuse an id before its answer. *)
Theorem C145_answered_partial : forall m es t s p q, run (g_init m) es = (t, Some s) -> t = p ++ OL ListenModel.OEnd :: q ->
  forall i, ~ In (OC i ServerModel.OWriteErr) p ->
  (forall id, In (OC i (ServerModel.OPing id)) t -> In (OC i (ServerModel.OWrite (ServerSpec.pong_of id))) p) /\
  (ServerSpec.distinct_ids (of_conn i t) -> forall r id, In (OC i (ServerModel.OReq r id)) t ->
     exists code body, In (OC i (ServerModel.OComp r code body)) p /\
                       In (OC i (ServerModel.OWrite (ServerModel.mkRes id (ServerModel.wire_code m code) body (Some r)))) p).
Proof. intros m es t s p q E T i N. exact (graceful m es t s p q E T i N). Qed.
(** After a single call of Stop the program does only so much by itself. When it has done it, and the handlers have
    completed what they were given, Stop has returned and Running is closed, if no connection that was told to stop had more
    than 128 requests and pings unanswered at a time. *)
Theorem C145_ends_partial : forall m es t s, run (g_init m) es = (t, Some s) -> one_stop es -> In (EL (ListenModel.Stop 0)) es ->
  (exists bound, forall es', productive s es' -> length es' <= bound) /\
  (quiet s -> (forall i, In (OL (ListenModel.OTell i)) t -> ServerSpec.at_most_128 (of_conn i t) /\ handled i t) ->
   In (OL ListenModel.OEnd) t /\ In (OL (ListenModel.OStopped 0)) t).
Proof.
  intros m es t s E O H. split.
  - exists (grank s). intros es' P. destruct (stop_stage m es t s E O) as (_ & ST & _). exact (settles m es' t s (GI_run _ _ _ _ E) ST P).
  - intros Q P. exact (ends m es t s E O H Q P).
Qed.
Print Assumptions C145_answered_partial.
Print Assumptions C145_ends_partial.

(** ** a stop with work in progress *)
Import ListenModel ServerModel GraceModel.
Open Scope nat_scope.
Definition nC (i : nat) (l : list ServerModel.ev) : list GraceModel.ev := map (EC i) l.
Definition nL (l : list ListenModel.ev) : list GraceModel.ev := map EL l.
Definition ex_two : list GraceModel.ev := nL [Accept true; Listen; Accept true; Listen].
Definition ex_stop : list GraceModel.ev := nL [Stop 0; Stop 0; Stop 0; TakeStop; Ctl; Accept false; Listen].
(** the first connection has a request with its handler when Stop is called, the second a ping in its queue *)
Definition ex_es : list GraceModel.ev :=
  ex_two ++ nC 1 [NetReq 7%Z; Reader] ++ nC 2 [NetPing 9%Z; Reader] ++ ex_stop ++
  nC 1 [Reader; Reader; Control; Control; Complete 0%nat 0%Z [5%Z]; Responder 0; Writer; Writer; Writer; Writer; Writer; Writer; Writer; Control; Control; Control; Control] ++
  nL [TakeConn 1; Ctl] ++ nC 1 [Control] ++ nL [TakeConn 1; Ctl] ++
  nC 2 [Reader; Reader; Control; Control; Writer; Writer; Writer; Writer; Writer; Writer; Writer; Control; Control; Control; Control] ++
  nL [TakeConn 2; Ctl] ++ nC 2 [Control].
Lemma done_stuck c : ServerEnd.all_done c -> ServerSpec.stuck c.
Proof.
  intros (P & W & K & WT & B) e I. destruct e; try contradiction; cbn [ServerModel.step]; unfold step_reader, step_writer, step_control; rewrite ?P, ?W, ?K, ?B, ?WT; try reflexivity. now destruct n.
Qed.
Lemma quiet_done s : ListenModel.kp (lst s) = KEnd -> ListenModel.lp (lst s) = LEnd -> (forall k, sp (lst s) k = SNew \/ sp (lst s) k = SRet) ->
  (forall i, cp (lst s) i = CNone \/ ServerEnd.all_done (con s i)) -> quiet s.
Proof.
  intros K L P C e I. destruct e as [e|i e].
  - exists (mkG (lst s) (told [] (con s))). split; [|now split]. cbn [step]. unfold step_server. destruct e; try contradiction; cbn [of_server ListenModel.step]; unfold step_listen, step_ctl, step_stop; rewrite ?K, ?L; try (destruct (free (lst s)); reflexivity); try reflexivity.
    destruct (P k) as [X|X]; rewrite X; [now elim I|reflexivity].
  - destruct (C i) as [X|X].
    + exists s. split; [cbn [step]; now rewrite X|now split].
    + assert (E : step_conn s i e = ([], Some (mkG (lst s) (upd (con s) i (con s i))))).
      { unfold step_conn. rewrite (done_stuck _ X e I). unfold seen. cbn [existsb]. destruct (reader_done (con s i)); reflexivity. }
      assert (AR : at_report (con s i) e = false). { unfold at_report. destruct X as (_ & _ & X & _). rewrite X. now destruct e. }
      cbn [step]. destruct (cp (lst s) i); [exists s; split; [reflexivity|now split]|..]; rewrite AR, E; eexists; (split; [reflexivity|]); (split; [reflexivity|]); intro j; cbn [con]; rewrite upd_eq; now destruct (Nat.eqb_spec j i) as [->|].
Qed.
Lemma ex_run : exists s, run (g_init None) ex_es = (fst (run (g_init None) ex_es), Some s) /\ quiet s.
Proof.
  assert (E : match snd (run (g_init None) ex_es) with Some _ => True | None => False end) by (vm_compute; exact Logic.I).
  assert (Q : match snd (run (g_init None) ex_es) with Some s => quiet s | None => False end).
  { assert (A1 : match snd (run (g_init None) ex_es) with Some s => ListenModel.kp (lst s) = KEnd /\ ListenModel.lp (lst s) = LEnd /\ (forall k, sp (lst s) k = SNew \/ sp (lst s) k = SRet) /\ (forall i, cp (lst s) i = CNone \/ ServerEnd.all_done (con s i)) | None => False end).
    { vm_compute. split; [reflexivity|]. split; [reflexivity|]. split.
      - intros [|k]; [right; reflexivity|left; reflexivity].
      - intros [|[|[|i]]]; [left; reflexivity| | |left; reflexivity]; right; (split; [reflexivity|]); (split; [reflexivity|]); (split; [reflexivity|]); split; reflexivity. }
    destruct (snd (run (g_init None) ex_es)) as [s|]; [|exact A1]. destruct A1 as (B1 & B2 & B3 & B4). now apply quiet_done. }
  destruct (run (g_init None) ex_es) as [t [s|]]; [|destruct E]. exists s. now split.
Qed.
(** checks by computation *)
Lemma one_stop_ok es : forallb (fun e => match e with EL (Stop k) => k =? 0 | _ => true end) es = true -> one_stop es.
Proof. intros F k H. rewrite forallb_forall in F. specialize (F _ H). now apply Nat.eqb_eq in F. Qed.
Lemma no_error_ok t i : forallb (fun o => match o with OC _ OWriteErr => false | _ => true end) t = true -> ~ In (OC i OWriteErr) t.
Proof. intros F H. rewrite forallb_forall in F. now specialize (F _ H). Qed.
Lemma handled_ok t i : forallb (fun o => match o with OC i (OSend r) => existsb (fun o' => match o' with OC j (OComp r' _ _) => (j =? i) && (r' =? r) | _ => false end) t | _ => true end) t = true -> handled i t.
Proof.
  intros F r H. rewrite forallb_forall in F. specialize (F _ H). cbn in F. apply existsb_exists in F. destruct F as (o & H2 & X). destruct o as [|j o]; [discriminate|]. destruct o; try discriminate.
  apply andb_prop in X. destruct X as [X1 X2]. apply Nat.eqb_eq in X1, X2. subst. now exists code, body.
Qed.
Theorem C145_example : exists t s, run (g_init None) ex_es = (t, Some s) /\ one_stop ex_es /\ In (EL (Stop 0)) ex_es /\ quiet s /\
  (forall i, In (OL (OTell i)) t -> ServerSpec.at_most_128 (of_conn i t) /\ handled i t) /\
  (forall i, ~ In (OC i OWriteErr) t /\ ServerSpec.distinct_ids (of_conn i t)) /\
  In (OL OEnd) t /\ In (OC 1 (OReq 0%nat 7%Z)) t /\ In (OC 2 (OPing 9%Z)) t.
Proof.
  destruct ex_run as (s & E & Q). exists (fst (run (g_init None) ex_es)), s. split; [exact E|].
  assert (T : exists t, t = fst (run (g_init None) ex_es)) by now eexists. destruct T as [t T]. rewrite <- T. vm_compute in T.
  split; [apply one_stop_ok; vm_compute; reflexivity|].
  split; [unfold ex_es, ex_two, ex_stop, nL; rewrite !in_app_iff; right; right; right; left; now left|]. split; [exact Q|].
  assert (O : forall i, of_conn i t = if i =? 1 then of_conn 1 t else if i =? 2 then of_conn 2 t else []) by (intros [|[|[|i]]]; subst t; vm_compute; reflexivity).
  split; [|split; [|subst t; cbn; tauto]].
  - intros i _. split.
    + apply ServerProps.few_ok. rewrite O. destruct (i =? 1); [|destruct (i =? 2)]; subst t; cbn; lia.
    + apply handled_ok. subst t. vm_compute. reflexivity.
  - intro i. split; [apply no_error_ok; subst t; vm_compute; reflexivity|]. apply ServerProps.nodup_distinct. rewrite O. destruct (i =? 1); [|destruct (i =? 2)]; subst t; cbn; repeat constructor; cbn; tauto.
Qed.

(** ** what can go wrong *)
(** Stopping a server with an idle connection may panic, although the network does nothing wrong. *)
Theorem C145_panic_refuted : exists es t, run (g_init None) es = (t, None) /\ one_stop es /\ (forall i e, In (EC i e) es -> ServerSpec.internal e) /\
  t = [OL (OServe 1); OL (OStopped 0); OL (OTell 1); OC 1 (OPanic CloseOfClosed)].
Proof.
  exists (nL [Accept true; Listen] ++ nC 1 [Writer] ++ nL [Stop 0; Stop 0; Stop 0; TakeStop; Ctl] ++ nC 1 [Reader; Reader; Control; Control; Writer; Writer; Control]), [OL (OServe 1); OL (OStopped 0); OL (OTell 1); OC 1 (OPanic CloseOfClosed)].
  split; [vm_compute; reflexivity|]. split; [|split; [|reflexivity]].
  - apply one_stop_ok. vm_compute. reflexivity.
  - intros i e H. rewrite !in_app_iff in H. destruct H as [H|[H|[H|H]]]; apply in_map_iff in H; destruct H as (x & X & H); try discriminate; injection X as <- ->; cbn in H; intuition (subst; exact Logic.I).
Qed.
Definition fail_es : list GraceModel.ev :=
  nL [Accept true; Listen] ++ nC 1 [NetReq 7%Z; Reader] ++ ex_stop ++
  nC 1 [Reader; Reader; Control; Control; Complete 0%nat 0%Z [5%Z]; Responder 0; Writer; WriteFail; Writer; Control; Control; Control] ++ nL [TakeConn 1; Ctl].
Definition dup_es : list GraceModel.ev :=
  nL [Accept true; Listen] ++ nC 1 [NetReq 7%Z; Reader; NetReq 7%Z; Reader] ++ ex_stop ++
  nC 1 [Reader; Reader; Control; Control; Complete 0%nat 0%Z [5%Z]; Responder 0; Complete 1%nat 0%Z [6%Z]; Responder 0; Writer; Writer; Writer; Writer; Writer; Writer; Writer; Control; Control; Control; Control] ++ nL [TakeConn 1; Ctl].
(** after a failed write the answers are lost *)
Theorem C145_write_error_refuted : exists es t s, run (g_init None) es = (t, Some s) /\ ServerSpec.distinct_ids (of_conn 1 t) /\ In (OL OEnd) t /\
  In (OC 1 (OReq 0%nat 7%Z)) t /\ In (OC 1 (OComp 0%nat 0%Z [5%Z])) t /\ ServerSpec.writes (of_conn 1 t) = [].
Proof.
  exists fail_es. eexists. eexists. split; [vm_compute; reflexivity|]. split; [apply ServerProps.nodup_distinct; cbn; repeat constructor; cbn; tauto|]. cbn. tauto.
Qed.
(** a client that reuses an id loses an answer *)
Theorem C145_reused_id_refuted : exists es t s, run (g_init None) es = (t, Some s) /\ ~ In (OC 1 OWriteErr) t /\ In (OL OEnd) t /\
  In (OC 1 (OReq 1%nat 7%Z)) t /\ In (OC 1 (OComp 1%nat 0%Z [6%Z])) t /\ ServerSpec.writes (of_conn 1 t) = [mkRes 7 0 [5%Z] (Some 0%nat)].
Proof.
  exists dup_es. eexists. eexists. split; [vm_compute; reflexivity|]. split; [apply no_error_ok; vm_compute; reflexivity|]. cbn. tauto.
Qed.
Print Assumptions C145_panic_refuted.
Print Assumptions C145_write_error_refuted.
Print Assumptions C145_reused_id_refuted.
